*.vo
*.vok
*.vos
*.glob
.*.aux
*.cache
.*.d
*.d
Makefile
Makefile.conf
