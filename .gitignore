*.vo
*.vok
*.vos
*.glob
*.aux
__pycache__
.lia.cache
.nia.cache
*.cache
*.vio
Makefile
Makefile.conf
.Makefile.d
