.lia.cache
.nra.cache
.nia.cache
