*.vo
*.vok
*.vos
*.glob
*.aux
.*.aux
*.d
.*.d
.lia.cache
.nia.cache
.Makefile.d
rocq/Makefile
rocq/Makefile.conf
.nra.cache
