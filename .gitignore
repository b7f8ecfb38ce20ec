.lia.cache
.nia.cache
*.vo
*.vok
*.vos
*.glob
*.aux
.*.aux
rocq/Makefile
rocq/Makefile.conf
.Makefile.d
*.d
.nra.cache
.lia.cache
.nia.cache
