*.vo
*.vok
*.vos
*.glob
*.aux
.*.aux
Makefile
Makefile.conf
.Makefile.d
.lia.cache
.nia.cache
rocq/Makefile*
rocq/.Makefile.d
__pycache__/
