rocq/theories/tmp*.v
.nra.cache
