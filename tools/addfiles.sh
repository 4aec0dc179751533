#!/bin/bash
# addfiles.sh M P ... -- Props ...: list new files in _CoqProject (proof files before the Props files)
cd /verif/rocq
for f in "$@"; do
  grep -q "^theories/$f.v$" _CoqProject && continue
  case $f in Props_*) echo "theories/$f.v" >> _CoqProject;; *) sed -i "s#^theories/Props_Change.v#theories/$f.v\ntheories/Props_Change.v#" _CoqProject;; esac
done
coq_makefile -f _CoqProject -o Makefile && make -j4 2>&1 | grep -v "^COQ" | grep -v Closed
cd /verif && python3 tools/manifest.py
