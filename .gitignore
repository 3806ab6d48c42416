.lia.cache
.nia.cache
t.v
t2.v
rocq/theories/t[0-9]*.v
