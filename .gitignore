*.vo
*.vos
*.vok
*.glob
.*.aux
.lia.cache
.nia.cache
.nra.cache
Makefile
Makefile.conf
.Makefile.d
__pycache__
