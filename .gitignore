rocq/Makefile
rocq/Makefile.conf
rocq/.Makefile.d
rocq/.*.cache
*.vo
*.vok
*.vos
*.glob
*.aux
.*.cache
