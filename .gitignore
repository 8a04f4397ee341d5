*.vo
*.vok
*.vos
*.glob
*.aux
.*.aux
*.d
.*.d
.lia.cache
.nia.cache
rocq/Makefile
rocq/Makefile.conf
rocq/.Makefile.d
CoqMakefile*
