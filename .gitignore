.nia.cache
.lia.cache
