.lia.cache
.nia.cache
*.vo
*.vos
*.vok
*.glob
.*.aux
Makefile.conf
Makefile
.Makefile.d
