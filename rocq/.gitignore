*.aux
*.d
*.glob
*.vo
*.vok
*.vos
.Makefile.d
.lia.cache
Makefile
Makefile.conf
.nia.cache
.lia.cache
