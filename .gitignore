.nra.cache
.lia.cache
seeded/__pycache__/
