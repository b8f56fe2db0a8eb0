#!/usr/bin/env python3
"""Writes DESIGN.md from design.md.in.  Needs the built theories (for Print Assumptions) and /repo."""
import ast,glob,os,re,json,subprocess,collections
here=os.path.dirname(os.path.abspath(__file__)); V=os.path.realpath(os.path.join(here,'..'))
spans=[]
for f in glob.glob(V+'/rocq/theories/M*.v'):
    for m in re.finditer(r'\(\*\*((?:(?!\*\)).)*)\*\)\s*(?:Fixpoint|Definition|Inductive|Record)\s+(\w+)',open(f).read(),re.S):
        for fn,ln in re.findall(r'(\w+\.py):([\d\-, \n]+)',m.group(1)):
            for r in re.findall(r'\d+(?:-\d+)?',ln):
                a,*b=r.split('-'); spans.append((fn,int(a),int(b[0]) if b else int(a),m.group(2)))
cov=['| function | lines | definitions |','|---|---|---|']
NO={'CoordinateGrid._grid':'abstract','CoordinateGrid._zeros':'abstract','CoordinateGrid.__eq__':'abstract','CoordinateGrid._display_grid':'abstract','StarSpot.__str__':'not modelled',
 'RectangularGrid._grid':'`grid_points`','RectangularGrid._area':'`grid_area`','RectangularGrid._display_grid':'`display_grid`','SpiralGrid.__init__':'`grid`','SpiralGrid._area':'`grid_area`'}
for f in sorted(glob.glob('/repo/vspec_vsm/*.py')):
    b=os.path.basename(f)
    def walk(n,pre):
        for x in getattr(n,'body',[]):
            if isinstance(x,ast.ClassDef): walk(x,pre+x.name+'.')
            elif isinstance(x,ast.FunctionDef):
                ds=sorted({d for (fn,a,e,d) in spans if fn==b and a<=x.end_lineno and e>=x.lineno})
                cov.append(f"| `{pre}{x.name}` | {b}:{x.lineno}-{x.end_lineno} | {', '.join('`%s`'%d for d in ds) or NO.get(pre+x.name,'?')} |")
    walk(ast.parse(open(f).read()),'')
thms=[t for c in json.load(open(V+'/MANIFEST.json'))['claims'] for t in c['theorems']]
mods=' '.join(os.path.basename(f)[:-2] for f in sorted(glob.glob(V+'/rocq/theories/Props*.v')))
src=f'From Verif Require Import {mods}.\n'+''.join(f'Goal True. idtac "@@{t}". Abort.\nPrint Assumptions {t}.\n' for t in thms)
open('/tmp/mkdesign_pa.v','w').write(src)
out=subprocess.run(['coqc','-Q',V+'/rocq/theories','Verif','/tmp/mkdesign_pa.v'],capture_output=True,text=True); t=None; d=collections.OrderedDict()
assert out.returncode==0,out.stderr
for l in out.stdout.split('\n'):
    if l.startswith('@@'): t=l[2:].strip(); d[t]=[]
    else:
        m=re.match(r'^([A-Za-z_.]+)\s*(:|$)',l)
        if m and t and m.group(1)!='Axioms': d[t].append(m.group(1).split('.')[-1])
g=collections.OrderedDict()
for t in d: g.setdefault(tuple(sorted(d[t])),[]).append(t)
ax=['The axioms that occur are those of the standard library:','',
 '* `ClassicalDedekindReals.sig_forall_dec`, `ClassicalDedekindReals.sig_not_dec` (the construction of the reals),',
 '* `FunctionalExtensionality.functional_extensionality_dep`,','* `Classical_Prop.classic`.','','`Print Assumptions` lists for each theorem:','','| axioms | theorems |','|---|---|']
for k in sorted(g,key=len): ax.append(f"| {', '.join('`%s`'%x for x in k) or 'none (closed)'} | {', '.join('`%s`'%x for x in g[k])} |")
s=open(here+'/design.md.in').read().replace('@COVERAGE','\n'.join(cov)).replace('@ASSUMPTIONS','\n'.join(ax))
open(V+'/DESIGN.md','w').write(s); print(len(thms),[(k,len(v)) for k,v in g.items()],[l for l in cov if '| ? |' in l])
