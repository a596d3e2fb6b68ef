*.vo
*.vok
*.vos
*.glob
*.aux
Makefile
Makefile.conf
.Makefile.d
*.d
.lra.cache
.nra.cache
.lia.cache
.nia.cache
