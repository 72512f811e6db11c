*.vo
*.vok
*.vos
*.glob
*.aux
.*.aux
.nra.cache
.lia.cache
.nia.cache
Makefile
Makefile.conf
.Makefile.d
