*.vo
*.vok
*.vos
*.glob
*.aux
.lia.cache
.nia.cache
Makefile
Makefile.conf
.Makefile.d
.coqdeps.d
CoqMakefile.conf
.nra.cache
.lia.cache
.nia.cache
