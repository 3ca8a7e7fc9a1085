.lia.cache
.nia.cache
*.vo
*.vok
*.vos
*.glob
*.aux
Makefile
Makefile.conf
.Makefile.d
.nra.cache
.nra.cache
.lia.cache
