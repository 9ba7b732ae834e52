*.vo
*.vok
*.vos
*.glob
*.aux
.*.aux
Makefile
Makefile.conf
.Makefile.d
.nra.cache
.lia.cache
.nia.cache
*.conf
