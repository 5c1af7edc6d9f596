*.vo
*.vok
*.vos
*.glob
.*.aux
*.cache
Makefile
Makefile.conf
.Makefile.d
CoqMakefile*
rocq/theories/*Tmp.v
