*.vo
*.vok
*.vos
*.glob
*.aux
rocq/Makefile
rocq/Makefile.conf
rocq/.Makefile.d
rocq/.lia.cache
.lia.cache
.nia.cache
*.cache
__pycache__/
