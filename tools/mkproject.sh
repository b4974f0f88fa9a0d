#!/bin/sh
# regenerate rocq/_CoqProject from the files present
cd /verif/rocq && { echo "-Q theories Verif"; ls theories/*.v; } > _CoqProject
