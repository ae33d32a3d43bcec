*.vo
*.vok
*.vos
*.glob
*.aux
.*.aux
Makefile*
.Makefile.d
.coqdeps.d
*.cache
