*.vo
*.vos
*.vok
*.glob
*.aux
.*.aux
.lia.cache
.nra.cache
Makefile
Makefile.conf
.Makefile.d
.nia.cache
