#!/bin/bash
# Print Assumptions for every theorem of MANIFEST.json (needs a build); reports the ones that are not closed
cd /verif/rocq; D=$(mktemp -d)
{ for f in theories/Props*.v; do echo "From Verif Require $(basename $f .v)."; done
  for f in theories/Props*.v; do m=$(basename $f .v); grep -o '^Theorem C[A-Za-z0-9_]*' $f | sed "s/Theorem \(.*\)/Print Assumptions $m.\1./"; done; } > $D/a.v
coqc -Q theories Verif $D/a.v | sort | uniq -c
