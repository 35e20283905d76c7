.lia.cache
.nia.cache
.Makefile.d
CoqMakefile.conf
.nra.cache
