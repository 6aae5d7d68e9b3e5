.lia.cache
.nia.cache
*.vo
*.vos
*.vok
*.glob
*.aux
.Makefile.d
Makefile
Makefile.conf
