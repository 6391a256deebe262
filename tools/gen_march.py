#!/usr/bin/env python3
"""Generates rocq/theories/MarchTables.v from /repo/binvox/marching-cubes.go."""
import re,os
s=open('/repo/binvox/marching-cubes.go').read()
et=re.findall(r'0x[0-9a-f]+',s[s.index('var edgeTable'):s.index('var triTable')])
tt=[[int(x) for x in m.group(1).split(',') if x.strip()] for m in re.finditer(r'^\t\{([^}]*)\},?$',s[s.index('var triTable'):],re.M)]
assert len(et)==256 and len(tt)==256 and all(len(r)==16 for r in tt)
o=open(os.path.join(os.path.dirname(os.path.abspath(__file__)),'../rocq/theories/MarchTables.v'),'w')
o.write('(** The tables of binvox/marching-cubes.go; generated by tools/gen_march.py, do not edit. *)\n')
o.write('From Coq Require Import ZArith List.\nImport ListNotations.\nOpen Scope Z_scope.\n\n')
o.write('(** binvox/marching-cubes.go:202-235 edgeTable. *)\nDefinition edgeTable : list Z := [\n')
for i in range(0,256,8):
    o.write('  '+'; '.join(str(int(x,16)) for x in et[i:i+8])+(';' if i<248 else '')+'\n')
o.write('].\n\n(** binvox/marching-cubes.go:237-494 triTable. *)\nDefinition triTable : list (list Z) := [\n')
for i,r in enumerate(tt):
    o.write('  ['+'; '.join(str(x) for x in r)+']'+(';' if i<255 else '')+'\n')
o.write('].\n')
