*.vo
*.vok
*.vos
*.glob
*.aux
.lia.cache
.nra.cache
.nia.cache
Makefile
Makefile.conf
.Makefile.d
*.conf
.CoqMakefile.d
rocq/theories/.*.aux
