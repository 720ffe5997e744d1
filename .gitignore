.lia.cache
__pycache__/
