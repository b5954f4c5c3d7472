*.vo
*.vok
*.vos
*.glob
*.aux
Makefile
Makefile.conf
.Makefile.d
*.lia.cache
.coqdeps.d
CoqMakefile.conf
*.nia.cache
