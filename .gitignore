*.vo
*.vos
*.vok
*.glob
.*.aux
Makefile
Makefile.conf
.Makefile.d
.lia.cache
.nia.cache
.coq-native/
