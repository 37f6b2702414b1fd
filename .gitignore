.lia.cache
.nia.cache
*.cache
