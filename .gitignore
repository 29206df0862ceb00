*.vo
*.vos
*.vok
*.glob
*.aux
.*.aux
.lia.cache
.nia.cache
*.d
Makefile
Makefile.conf
.Makefile.d
.nra.cache
.lia.cache
