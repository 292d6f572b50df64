*.vo
*.vok
*.vos
*.glob
*.aux
.*.aux
.lia.cache
.nia.cache
*.cache
rocq/Makefile
rocq/Makefile.conf
.Makefile.d
rocq/.Makefile.d
__pycache__/
