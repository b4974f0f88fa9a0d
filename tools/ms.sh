#!/bin/bash
# milestone: regenerate, commit, check
cd /verif; python3 tools/props.py; tools/mkproject.sh; python3 tools/manifest.py | tail -1; python3 tools/design.py || exit 1; git add -A; git commit -qm "$1"; vcheck 2>&1 | grep -o "\"gate.*\|manifest_status[^}]*\|Error.*"
