*.vo
*.vok
*.vos
*.glob
.*.aux
.Makefile.d
Makefile
Makefile.conf
.lia.cache
.nia.cache
rocq/.nra.cache
rocq/.lia.cache
.nra.cache
.lia.cache
