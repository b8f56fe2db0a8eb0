*.vo
*.vok
*.vos
*.glob
*.aux
*.cache
.*.aux
rocq/Makefile
rocq/Makefile.conf
rocq/.Makefile.d
.Makefile.d
