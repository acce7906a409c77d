*.vo
*.vok
*.vos
*.glob
*.aux
.*.aux
.lia.cache
.nra.cache
.nia.cache
.coqdeps.d
Makefile
Makefile.conf
.Makefile.d
