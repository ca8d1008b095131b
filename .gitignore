*.vo
*.vok
*.vos
*.glob
*.aux
.*.aux
.nia.cache
.lia.cache
Makefile
Makefile.conf
.Makefile.d
*.d
.nra.cache
