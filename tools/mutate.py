#!/usr/bin/env python3
"""Seeded-bug testing of the theorems.

usage: mutate.py [ids...]
A scratch copy of rocq/ (built once in /tmp/mb/rocq with an extra axiom [boom : False]) is edited
with each mutation of seeded/mutations.py; every proof that no longer goes through is replaced by
one that uses [boom]; finally Print Assumptions tells which C-theorems depend on it, i.e. fail.
Result: one JSON line per mutation in seeded/LOG.jsonl.
"""
import json, os, re, shutil, subprocess, sys, concurrent.futures as cf
ROOT = '/verif'; BASE = os.environ.get('MB', '/tmp/mb') + '/rocq'; OUT = '/tmp/mutants'
sys.path.insert(0, ROOT + '/seeded')

def sh(cmd, cwd, t=300):
    try:
        p = subprocess.run(cmd, cwd=cwd, shell=True, stdout=subprocess.PIPE, stderr=subprocess.STDOUT, timeout=t, text=True)
        return p.returncode, p.stdout
    except subprocess.TimeoutExpired as e:
        return 124, (e.stdout or b'').decode(errors='replace') if isinstance(e.stdout, bytes) else (e.stdout or '')

def order():
    return [l.strip()[9:-2] for l in open(BASE + '/_CoqProject') if l.strip().endswith('.v')]

def deps():
    d = {}
    rc, out = sh('coqdep -Q theories Verif theories/*.v', BASE)
    for l in out.splitlines():
        m = re.match(r'theories/(\w+)\.vo .*?: (.*)', l)
        if m:
            d[m.group(1)] = set(re.findall(r'theories/(\w+)\.vo\b', m.group(2)))
    return d

def using():
    u = {}
    log = open(BASE + '/build.log').read()
    for m in re.finditer(r'The proof of (\w+)\s*should start with(?: one of)? the following commands?:\s*Proof using([^\n]*?)\.\s', log):
        u[m.group(1)] = m.group(2).strip()
    return u
DECL = re.compile(r'^\s*(?:Theorem|Lemma|Corollary|Example|Fact)\s+(\w+)', re.M)

def patch(src, pos, U):
    """replace the proof around offset pos"""
    last = None
    for m in DECL.finditer(src):
        if m.start() <= pos: last = m
        else: break
    if not last: return None, None
    name = last.group(1)
    nxt = DECL.search(src, last.end())
    lim = nxt.start() if nxt else len(src)
    p = src.find('Proof', last.end()); q = src.find('Qed.', last.end())
    if p < 0 or q < 0 or p > lim:
        m = re.compile(r':=').search(src, last.end())
        return name, None
    if q < pos - 5 and pos > q + 4: return name, None
    u = U.get(name)
    pr = ('Proof using %s.' % (u or '')) if u is not None else 'Proof.'
    return name, src[:p] + pr + ' destruct boom. ' + src[q:]

def run(mut, ORD, DEP, U):
    d = f"{OUT}/{mut['id']}"
    shutil.rmtree(d, ignore_errors=True); shutil.copytree(BASE, d)
    f = f"{d}/theories/{mut['file']}.v"; s = open(f).read()
    if s.count(mut['old']) < 1 or (s.count(mut['old']) > 1 and not mut.get('n')):
        return dict(mut, error='pattern occurs %d times' % s.count(mut['old']))
    if mut.get('n'):
        i = -1
        for _ in range(mut['n']): i = s.index(mut['old'], i + 1)
        s = s[:i] + mut['new'] + s[i+len(mut['old']):]
    else: s = s.replace(mut['old'], mut['new'])
    open(f, 'w').write(s)
    dirty = set(); broken = []; err = None
    for x in ORD:
        if x != mut['file'] and not (DEP.get(x, set()) & dirty): continue
        dirty.add(x)
        for _ in range(60):
            rc, out = sh(f'coqc -time -Q . Verif {x}.v', d + '/theories', 150)
            if rc == 0: break
            m = re.search(r'File "\./(\w+)\.v", line (\d+), characters (\d+)-(\d+):\s*\nError', out)
            src = open(f'{d}/theories/{x}.v').read()
            if m:
                ln = int(m.group(2)); off = sum(len(l) + 1 for l in src.split('\n')[:ln-1]) + int(m.group(3))
            else:
                t = [int(k) for k in re.findall(r'Chars \d+ - (\d+)', out)]
                if not t: err = f'{x}: rc={rc} {out[-300:]}'; break
                off = len(src.encode()[:t[-1]].decode(errors='replace')) + 1
            name, new = patch(src, off, U)
            if new is None or (x + '.' + str(name)) in broken:
                err = f'{x}: cannot patch {name}: {out[-400:]}'; break
            broken.append(x + '.' + name); open(f'{d}/theories/{x}.v', 'w').write(new)
        if err: break
    failed = []
    if not err:
        props = [x for x in ORD if x.startswith('Props') and x in dirty]  # the others cannot depend on boom
        thms = []
        for x in props:
            thms += re.findall(r'^\s*(?:Theorem|Lemma|Corollary)\s+(C\d\d+_\w+)', open(f'{d}/theories/{x}.v').read(), re.M)
        open(f'{d}/theories/Zcheck.v', 'w').write(
            'From Verif Require Import ' + ' '.join(props) + '.\n' +
            ''.join(f'Print Assumptions {t}.\n' for t in thms))
        rc, out = sh('coqc -Q . Verif Zcheck.v', d + '/theories', 1200)
        blocks = re.split(r'(?=Closed under the global context|Axioms:)', out)[1:]
        if len(blocks) != len(thms): err = f'check: {len(blocks)} vs {len(thms)} {out[-300:]}'
        failed = [t for t, b in zip(thms, blocks) if 'boom' in b]
    shutil.rmtree(d, ignore_errors=True)
    r = dict(id=mut['id'], definition=f"{mut['file']}.{mut['def']}", edit=mut['edit'], breaks=mut['breaks'],
             theorems_failed=failed, proofs_broken=broken, theorems_tightened=mut.get('tightened', []))
    if err: r['error'] = err
    return r

if __name__ == '__main__':
    from mutations import MUTATIONS
    sel = set(sys.argv[1:])
    done = {}
    logf = ROOT + '/seeded/LOG.jsonl'
    if os.path.exists(logf):
        for l in open(logf):
            if l.strip():
                e = json.loads(l)
                if 'id' in e: done[e['id']] = e
    todo = [m for m in MUTATIONS if (m['id'] in sel if sel else m['id'] not in done)]
    os.makedirs(OUT, exist_ok=True)
    DEP, U = deps(), using()
    ORD = []
    def visit(x):
        if x not in ORD:
            for y in sorted(DEP.get(x, ())): visit(y)
            ORD.append(x)
    for x in order(): visit(x)
    with cf.ThreadPoolExecutor(int(os.environ.get("J", "4"))) as ex:
        for r in ex.map(lambda m: run(m, ORD, DEP, U), todo):
            if 'error' in r: print('ERR', r['id'], r['error'], flush=True)
            claims = set(re.findall(r'C\d\d+', ' '.join(r['breaks']) if isinstance(r['breaks'], list) else r['breaks'])) if 'breaks' in r else set()
            hit = {t.split('_')[0] for t in r.get('theorems_failed', [])}
            miss = claims - hit
            print(r['id'], 'MISS ' + ','.join(sorted(miss)) if miss else 'ok', 'failed:', ' '.join(sorted(hit)), '| first broken', r.get('proofs_broken', [])[:3], flush=True)
            if 'error' not in r: done[r['id']] = r
            open(logf, 'w').write(''.join(json.dumps(e) + '\n' for e in done.values()))
