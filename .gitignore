*.vo
*.vok
*.vos
*.glob
.*.aux
Makefile
Makefile.conf
.Makefile.d
.lia.cache
.nra.cache
.nia.cache
