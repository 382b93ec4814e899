# usage: addprop.py < file with p(...) text ; inserts before the final open()
import sys
f='/verif/tools/mkprops.py'; s=open(f).read(); i=s.rindex("open('/verif/properties.jsonl'")
open(f,'w').write(s[:i]+sys.stdin.read()+s[i:])
