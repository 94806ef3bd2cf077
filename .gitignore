*.vo
*.vok
*.vos
*.glob
*.aux
.lia.cache
.nia.cache
.nra.cache
.*.cache
Makefile
Makefile.conf
.Makefile.d
CoqMakefile*
__pycache__/
