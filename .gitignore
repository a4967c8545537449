*.vo
*.vos
*.vok
*.glob
*.aux
.*.aux
*.conf
.Makefile.d
Makefile
Makefile.conf
.lia.cache
.nia.cache
