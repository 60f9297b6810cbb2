rocq/.nra.cache
rocq/.lia.cache
