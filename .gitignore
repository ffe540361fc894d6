*.vo
*.vok
*.vos
*.glob
*.aux
.*.aux
*.cache
.lia.cache
.nia.cache
.Makefile.coq.d
rocq/Makefile
rocq/Makefile.conf
rocq/.Makefile.d
