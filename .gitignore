*.vo
*.vok
*.vos
*.glob
.*.aux
Makefile*
.Makefile.d
*.cache
