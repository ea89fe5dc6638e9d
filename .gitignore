*.aux
*.glob
*.vo
*.vok
*.vos
.*.aux
.lia.cache
.nra.cache
rocq/.Makefile.d
rocq/Makefile
rocq/Makefile.conf
.nia.cache
