*.aux
*.d
*.glob
*.vo
*.vok
*.vos
.Makefile.d
.lia.cache
.nia.cache
.nra.cache
Makefile
Makefile.conf
.nia.cache
