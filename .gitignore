*.vo
*.vok
*.vos
*.glob
*.aux
.lia.cache
.nia.cache
.nra.cache
.Makefile.coq.d
.Makefile.d
rocq/Makefile
rocq/Makefile.conf
