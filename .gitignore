*.vo
*.vok
*.vos
*.glob
*.aux
.*.aux
rocq/Makefile
rocq/Makefile.conf
rocq/.Makefile.d
.lia.cache
.nia.cache
.nra.cache
.lia.cache
.nia.cache
*.cache
