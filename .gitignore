*.cache
.*.cache
