#!/usr/bin/env python3
"""Generic mutation operators over every definition of the model files.

usage: automutate.py gen | run [substring...] | show
gen:  list the mutants (nothing is run).
run:  run those not yet in /tmp/auto/res.jsonl.  A mutant is killed as soon as one C-theorem depends on
      the axiom [boom] that replaces broken proofs (see mutate.py); 'invalid' if it does not type-check;
      'survived' if every C-theorem still goes through.
"""
import re, sys, os, json, shutil, concurrent.futures as cf
sys.path.insert(0, '/verif/tools')
import mutate as mu
FILES = ['Style','Fmt','StdCompat','SString','Plain','Ansi','Html','Io','Format','ToString','Nom','Parse','Codegen','Macros','Lib','StdIo','StdVal','Builders','Effects','Diagnose','Quote',
  'Buffered','Clones','Docs','Endless','Exprs','FeatureTable','Features','Located','Shared','Threads','Overrides']
TH = mu.BASE + '/theories/'
RES = '/tmp/auto/res.jsonl'; OUT = '/tmp/auto/w'

def defs(src):
    """(name, start, end) of each Definition/Fixpoint body, with comments blanked in a shadow copy."""
    sh = list(src); i = 0; depth = 0
    while i < len(src):
        if src.startswith('(*', i): depth += 1; sh[i] = sh[i+1] = ' '; i += 2; continue
        if depth and src.startswith('*)', i): depth -= 1; sh[i] = sh[i+1] = ' '; i += 2; continue
        if depth and src[i] != '\n': sh[i] = ' '
        i += 1
    sh = ''.join(sh)
    out = []
    for m in re.finditer(r'^\s*(?:Definition|Fixpoint|with)\s+(\w+)', sh, re.M):
        # find the := after the name, then the terminating '.\n'
        e = re.compile(r'\.\s*\n').search(sh, m.end())
        a = sh.find(':=', m.end())
        if a < 0 or not e or a > e.start(): continue
        out.append((m.group(1), a + 2, e.start()))
    return sh, out

SWAPS = [('true','false'),('Ok','Err'),('foreground','background'),('Foreground','Background'),('Bold','Faint'),('Normal','Bold'),
  ('d_foreground','d_background'),('ALeft','ARight'),('ACenter','ALeft'),('SPlus','SMinus'),('HexLower','HexUpper'),('PErr','PFail'),('fst','snd'),
  ('PLeft','PRight'),('PPlus','PMinus'),('PLower','PUpper'),('Red','Green'),('Black','White'),('fa_width','fa_precision'),('fa_alternate','fa_zero'),
  ('pa_width','pa_precision'),('pa_alternate','pa_zero'),('FLowerHex','FUpperHex'),('FLowerExp','FUpperExp'),('FOctal','FBinary'),('TLowerHex','TUpperHex'),
  ('TDisplay','TDebug'),('firstn','skipn'),('existsb','forallb'),('preceded','terminated'),('many0','many1'),('style_default','(fm_style f)'),
  ('fold_left','fold_right'),('rev','id'),('seq','repeat'),('Restyle_Style','Restyle_StyleDiff'),('bind','try_'),('w_write_str','w_write_char')]

def gen():
    muts = []
    for f in FILES:
        src = open(TH + f + '.v').read()
        sh, ds = defs(src)
        for name, a, b in ds:
            body = sh[a:b]; k = 0
            def add(i, j, new, what):
                nonlocal k
                if sh[a+i:a+j] == new: return
                k += 1
                ln = src.count('\n', 0, a+i) + 1
                muts.append(dict(id=f'{f}.{name}.{k}', file=f, name=name, i=a+i, j=a+j, new=new, edit=f'line {ln}: {what}'))
            for m in re.finditer(r'(?<![\w.])([A-Za-z_]\w*)', body):
                w = m.group(1)
                for x, y in SWAPS:
                    if w == x: add(m.start(), m.end(), y, f'{x} -> {y}')
                    elif w == y: add(m.start(), m.end(), x, f'{y} -> {x}')
            for m in re.finditer(r'(?<![\w"])(\d+)(?!\w)', body):
                n = int(m.group(1)); add(m.start(), m.end(), str(n+1), f'{n} -> {n+1}')
                if n: add(m.start(), m.end(), str(n-1), f'{n} -> {n-1}')
            for m in re.finditer(r'<=\?|<\?|=\?|&&|\|\|', body):
                o = m.group(0); new = {'<=?':'<?','<?':'<=?','=?':'<=?','&&':'||','||':'&&'}[o]
                add(m.start(), m.end(), new, f'{o} -> {new}')
            for m in re.finditer(r'\bif\b((?:(?!\bif\b|\bthen\b|\bmatch\b).)*?)\bthen\b', body, re.S):
                c = m.group(1).strip(); add(m.start(1), m.end(1), f' negb ({c}) ', f'if {c} -> if negb')
            for m in re.finditer(r'"((?:[^"]|"")+)"', body):
                s = m.group(1)
                add(m.start(), m.end(), '"' + s[:-1] + '"' if s != '""' else '""""""', f'string {s!r} shortened')
                if s.isalnum(): add(m.start(), m.end(), '"' + s[:-1] + ('x' if s[-1] != 'x' else 'y') + '"', f'string {s!r} last letter changed')
            # drop an operand of ++
            for m in re.finditer(r'\+\+', body):
                r = re.compile(r'\s*(\((?:[^()]|\([^()]*\))*\)|\[[^\]]*\]|[\w]+(?:\s+(?:"[^"]*"|\w+|\([^()]*\)))*)').match(body, m.end())
                if r: add(m.start(), r.end(), '', f'drop ++ {r.group(1)!r}')
                l = re.compile(r'(\((?:[^()]|\([^()]*\))*\)|\[[^\]]*\]|[\w]+(?:\s+(?:"[^"]*"|\w+|\([^()]*\)))*)\s*$').search(body[:m.start()])
                if l and ':=' not in l.group(0): add(l.start(), m.end(), '', f'drop {l.group(1)!r} ++')
            # match arms: replace the body of an arm by the next arm's body (single-line arms)
            arms = [m for m in re.finditer(r'\|([^|=]*?)=>([^|\n]*?)(?=\s*\||\s*\n\s*\||\s*end\b)', body)]
            for p, q in zip(arms, arms[1:]):
                if body[p.end():q.start()].strip() == '' :
                    add(p.start(2), p.end(2), q.group(2), f'arm {p.group(1).strip()} does as arm {q.group(1).strip()}')
                    add(q.start(2), q.end(2), p.group(2), f'arm {q.group(1).strip()} does as arm {p.group(1).strip()}')
            # Some x -> None (simple)
            for m in re.finditer(r'\bSome (\w+|\((?:[^()]|\([^()]*\))*\))(?!\s*(?:=>|,))', body):
                add(m.start(), m.end(), 'None', f'{m.group(0)!r} -> None')
            # elements of list literals dropped
            for m in re.finditer(r'\[([^\[\]]*;[^\[\]]*)\]', body):
                parts = m.group(1).split(';'); 
                if len(parts) <= 24:
                    for t in range(len(parts)):
                        add(m.start(1), m.end(1), ';'.join(parts[:t]+parts[t+1:]), f'list element {parts[t].strip()!r} dropped')
    return muts

def run(mut, ORD, DEP, U):
    d = f"{OUT}/{mut['id']}"
    shutil.rmtree(d, ignore_errors=True)
    os.makedirs(d); os.system(f'cp -r {mu.BASE}/theories {d}/theories')
    f = f"{d}/theories/{mut['file']}.v"; s = open(f).read()
    open(f, 'w').write(s[:mut['i']] + mut['new'] + s[mut['j']:])
    dirty = set(); broken = []; res = 'survived'; killer = None
    for x in ORD:
        if x == 'Tests' or (x != mut['file'] and not (DEP.get(x, set()) & dirty)): continue
        dirty.add(x); err = None
        for _ in range(60):
            rc, out = mu.sh(f'coqc -time -Q . Verif {x}.v', d + '/theories', 150)
            if rc == 0: break
            m = re.search(r'File "\./(\w+)\.v", line (\d+), characters (\d+)-(\d+):\s*\nError', out)
            src = open(f'{d}/theories/{x}.v').read()
            if m:
                ln = int(m.group(2)); off = sum(len(l) + 1 for l in src.split('\n')[:ln-1]) + int(m.group(3))
            else:
                t = [int(k) for k in re.findall(r'Chars \d+ - (\d+)', out)]
                if not t: err = f'{x}: rc={rc} {out[-200:]}'; break
                off = len(src.encode()[:t[-1]].decode(errors='replace')) + 1
            name, new = mu.patch(src, off, U)
            if re.match(r'C\d\d+_', name or '') and re.search(r'^\s*(?:Theorem|Lemma|Corollary)\s+' + name + r'\b', src, re.M): killer = x + '.' + name; break
            if x == mut['file']: err = out[-300:]; break
            if new is None or (x + '.' + str(name)) in broken: err = f'{x}: cannot patch {name}: {out[-300:]}'; break
            broken.append(x + '.' + name); open(f'{d}/theories/{x}.v', 'w').write(new)
        if killer: res = 'killed'; break
        if err: res = 'invalid' if x == mut['file'] else 'error'; killer = err; break
        if x.startswith('Props') and broken:
            thms = re.findall(r'^\s*(?:Theorem|Lemma|Corollary)\s+(C\d\d+_\w+)', open(f'{d}/theories/{x}.v').read(), re.M)
            open(f'{d}/theories/Zcheck.v', 'w').write(f'From Verif Require Import {x}.\n' + ''.join(f'Print Assumptions {t}.\n' for t in thms))
            rc, out = mu.sh('coqc -Q . Verif Zcheck.v', d + '/theories', 150)
            if 'boom' in out:
                blocks = re.split(r'(?=Closed under the global context|Axioms:)', out)[1:]
                killer = ' '.join(t for t, b in zip(thms, blocks) if 'boom' in b); res = 'killed'; break
    shutil.rmtree(d, ignore_errors=True)
    return dict(id=mut['id'], edit=mut['edit'], result=res, by=killer, broken=broken[:6])

if __name__ == '__main__':
    ms = gen()
    if sys.argv[1] == 'gen':
        from collections import Counter
        print(len(ms), Counter(m['file'] for m in ms))
        for m in ms: print(m['id'], m['edit'])
        sys.exit()
    done = {}
    if os.path.exists(RES):
        for l in open(RES): e = json.loads(l); done[e['id'] + e['edit']] = e
    if sys.argv[1] == 'show':
        from collections import Counter
        print(Counter(e['result'] for e in done.values()))
        for e in done.values():
            if e['result'] in ('survived', 'error'): print(e['result'], e['id'], e['edit'], e['by'] or '', e['broken'])
        sys.exit()
    todo = [m for m in ms if m['id'] + m['edit'] not in done and (len(sys.argv) < 3 or any(a in m['id'] for a in sys.argv[2:]))]
    os.makedirs(OUT, exist_ok=True)
    DEP, U = mu.deps(), mu.using()
    ORD = []
    def visit(x):
        if x not in ORD:
            for y in sorted(DEP.get(x, ())): visit(y)
            ORD.append(x)
    for x in mu.order(): visit(x)
    import random; random.Random(1).shuffle(todo)
    with cf.ThreadPoolExecutor(int(os.environ.get('J', '3'))) as ex:
        for fu in cf.as_completed([ex.submit(run, m, ORD, DEP, U) for m in todo]):
            r = fu.result(); open(RES, 'a').write(json.dumps(r) + '\n')
            print(r['result'], r['id'], r['edit'], flush=True)
