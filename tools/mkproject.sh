#!/bin/bash
cd /verif/rocq; { echo "-Q theories Verif"; ls theories/*.v; } > _CoqProject
coq_makefile -f _CoqProject -o Makefile
