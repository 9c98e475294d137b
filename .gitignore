*.vo
*.vok
*.vos
*.glob
*.aux
.*.aux
.lia.cache
.nia.cache
.Makefile.d
*.conf
rocq/Makefile
.CoqMakefile.d
.nra.cache
