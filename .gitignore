*.vo
*.vok
*.vos
*.glob
.*.aux
*.cache
.*.d
Makefile
Makefile.conf
.lia.cache
.nra.cache
.nia.cache
