*.vo
*.vok
*.vos
*.glob
.*.aux
.lia.cache
.nia.cache
.Makefile.d
rocq/Makefile
rocq/Makefile.conf
.nra.cache
