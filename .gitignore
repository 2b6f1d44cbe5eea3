*.vo
*.vok
*.vos
*.glob
*.aux
.*.aux
.lia.cache
.nia.cache
.csdp.cache
Makefile
Makefile.conf
.Makefile.d
.CoqMakefile.d
.nra.cache
