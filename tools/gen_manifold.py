#!/usr/bin/env python3
"""Generates rocq/theories/ManifoldTables.v from /repo/binvox/face-templates.go and the switch in
/repo/binvox/manifold.go: grid2tris."""
import re,os
tsrc=open('/repo/binvox/face-templates.go').read()
msrc=open('/repo/binvox/manifold.go').read()
o=open(os.path.join(os.path.dirname(os.path.abspath(__file__)),'../rocq/theories/ManifoldTables.v'),'w')
def line(src,pos): return src.count('\n',0,pos)+1
o.write('''(** The templates of binvox/face-templates.go and the switch of binvox/manifold.go: grid2tris;
    generated by tools/gen_manifold.py, do not edit.
    Coordinates are in units of [dd] (face-templates.go:7). *)
From Verif Require Import Base MeshPush ManifoldXform.
From Coq Require Import ZArith List Bool.
Import ListNotations.
Open Scope Z_scope.

''')
for m in re.finditer(r'^\t(x\w+)\s*=\s*gl\.Vertex\{Position: gl\.V\(([^)]*)\)',tsrc,re.M):
    c=[{'-dd':'-1','dd':'1','0':'0'}[x.strip()] for x in m.group(2).split(',')]
    o.write('(** binvox/face-templates.go:%d *)\nDefinition %s : key := (%s).\n'%(line(tsrc,m.start()+1),m.group(1),', '.join(c)))
o.write('\n')
ntri=0
for m in re.finditer(r'^\t(\w+)\s*=\s*\[\]\*gl\.Triangle\{(.*?)^\t\}',tsrc,re.M|re.S):
    ts=re.findall(r'\{V1:\s*(\w+), V2:\s*(\w+), V3:\s*(\w+)\}',m.group(2))
    assert len(ts)==m.group(2).count('V1:')
    ntri+=len(ts)
    o.write('(** binvox/face-templates.go:%d-%d *)\nDefinition %s : list zface := [\n  %s\n].\n\n'%(line(tsrc,m.start()+1),line(tsrc,m.end()),m.group(1),';\n  '.join('(%s, %s, %s)'%t for t in ts)))
assert ntri==tsrc.count('\t{V1:')
# the switch
start=msrc.index('switch n {'); end=msrc.index('\tdefault:\n\t\tlog.Printf("grid2tris')
cases=[]
for m in re.finditer(r'^\tcase ([^:]*):(.*?)(?=^\tcase |\Z)',msrc[start:end],re.M|re.S):
    body='\n'.join(l.split('//')[0] for l in m.group(2).split('\n')[1:])
    stm=[l.strip() for l in body.split('\n') if l.strip()]
    ln=line(msrc,start+m.start()+1)
    if m.group(1).strip()=='0, 0xff':
        assert stm==[]; cases.append((ln,'(n =? 0) || (n =? 255)','[]')); continue
    cond='n =? '+' || '.join([]) if False else None
    gs=[g.strip() for g in m.group(1).split('|')]
    assert all(re.fullmatch('g[0-7]',g) for g in gs)
    pat=gs[0]
    for g in gs[1:]: pat='Z.lor (%s) %s'%(pat,g) if ' ' in pat else 'Z.lor %s %s'%(pat,g)
    def expr(e):
        e=e.strip()
        mm=re.fullmatch(r'(\w+)\((.*)\)',e)
        if mm: return '%s (%s)'%(mm.group(1),expr(mm.group(2))) if '(' in mm.group(2) else '%s %s'%(mm.group(1),mm.group(2))
        assert re.fullmatch(r'\w+',e),e
        return e
    def appl(e):
        mm=re.fullmatch(r'apply\(k, (.*), (\w+|flipNormals\(\w+\))\)',e); assert mm,e
        v=expr(mm.group(1)); t=expr(mm.group(2))
        return 'apply k %s %s'%(v if ' ' not in v else '(%s)'%v, t if ' ' not in t else '(%s)'%t)
    if len(stm)==1:
        mm=re.fullmatch(r'return (.*)',stm[0]); body=appl(mm.group(1))
    else:
        assert stm[-1]=='return tris',stm
        parts=[]
        for s in stm[:-1]:
            mm=re.fullmatch(r'tris = append\(tris, (.*)\.\.\.\)',s); assert mm,s
            parts.append(appl(mm.group(1)))
        body=' ++ '.join(parts)
    cases.append((ln,'n =? '+pat,body))
assert len(cases)==msrc[start:end].count('\n\tcase ')
o.write('(** binvox/manifold.go:145-538 grid2tris; the unhandled patterns are logged and give nothing. *)\n')
o.write('Definition grid2tris {A} (k : key) (n : Z) (v2v : voxelToVectorFunc A) : list (A * A * A) :=\n')
for ln,c,b in cases:
    o.write('  if %s then (* manifold.go:%d *) %s else\n'%(c,ln,b))
o.write('  [].\n')
