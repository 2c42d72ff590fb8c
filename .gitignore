*.vo
*.vok
*.vos
*.glob
.*.aux
.lia.cache
.nia.cache
Makefile*
.Makefile.d
*.aux
.nra.cache
.lia.cache
