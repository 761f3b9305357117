#!/bin/sh
# Build the scratch base for mutate.py: a copy of rocq/ with an axiom [boom] and Proof-using suggestions.
rm -rf ${MB:-/tmp/mb} && mkdir -p ${MB:-/tmp/mb} && cp -r /verif/rocq ${MB:-/tmp/mb}/rocq && cd ${MB:-/tmp/mb}/rocq || exit 1
find . -name '*.vo*' -o -name '*.glob' -o -name '.*.aux' | xargs rm -f
sed -i '$a\
Axiom boom : False.\
Global Set Suggest Proof Using.\
Global Set Default Timeout 150.' theories/Base.v
sed -i '/^Print Assumptions/d' theories/*.v
coq_makefile -f _CoqProject -o Makefile && make -j4 > build.log 2>&1; tail -1 build.log
