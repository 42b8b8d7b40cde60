*.vo
*.vok
*.vos
*.glob
*.aux
.*.aux
.*.cache
*.d
rocq/Makefile
rocq/Makefile.conf
rocq/.Makefile.d
