.*.cache
rocq/.*.cache
