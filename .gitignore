*.vo
*.vos
*.vok
*.glob
*.aux
.*.aux
*.cache
rocq/Makefile
rocq/Makefile.conf
rocq/.Makefile.d
rocq/.lia.cache
rocq/.nia.cache
__pycache__
*.cache
