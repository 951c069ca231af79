*.vo
*.vos
*.vok
*.glob
*.aux
.*.aux
.lia.cache
rocq/Makefile
rocq/Makefile.conf
rocq/.Makefile.d
.Makefile.d
.nia.cache
tools/__pycache__/
