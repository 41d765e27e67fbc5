.lia.cache
.nia.cache
.nra.cache
.lia.cache
.nia.cache
