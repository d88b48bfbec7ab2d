.lia.cache
.nia.cache
.nra.cache
rocq/.lia.cache
