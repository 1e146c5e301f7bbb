*.vo
*.vok
*.vos
*.glob
*.aux
Makefile
Makefile.conf
.Makefile.d
*.d
.*.cache
.*.aux
.lia.cache
.nia.cache
theories/.*.cache
