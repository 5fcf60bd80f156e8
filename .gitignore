*.vo
*.vok
*.vos
*.glob
*.aux
.*.aux
.nra.cache
.lia.cache
Makefile*
.Makefile*
