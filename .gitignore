.nra.cache
*.cache
