*.vo
*.vok
*.vos
*.glob
*.aux
.*.aux
.lia.cache
.nia.cache
Makefile*
.Makefile*
*.d
.coqdeps*
.nra.cache
*.cache
