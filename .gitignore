*.vo
*.vok
*.vos
*.glob
*.aux
.*.aux
.lia.cache
.nia.cache
.nra.cache
.lra.cache
rocq/Makefile
rocq/Makefile.conf
rocq/.Makefile.d
rocq/CoqMakefile*
