*.vo
*.vok
*.vos
*.glob
*.aux
.*.aux
.lia.cache
.nra.cache
*.cache
rocq/Makefile
rocq/Makefile.conf
rocq/.Makefile.d
