#!/usr/bin/env python3
"""Expands tools/props/Props*.v.in into rocq/theories/Props*.v.
A line `@THM name lemma` becomes the theorem `name` with the statement of `lemma`
(copied from the L*.v file), proved by `exact lemma`, followed by Print Assumptions."""
import re,glob,os
here=os.path.dirname(os.path.abspath(__file__)); th=os.path.join(here,'..','rocq','theories')
lem={}
for f in glob.glob(th+'/L*.v'):
    for m in re.finditer(r'^(?:Lemma|Theorem) (\w+)\s*:(.*?)\.\s*\nProof\.',open(f).read(),re.S|re.M):
        lem[m.group(1)]=m.group(2).strip()
for f in sorted(glob.glob(here+'/props/*.v.in')):
    out=[]
    for l in open(f):
        m=re.match(r'@THM (\w+) (\w+)',l)
        if m:
            out.append(f"Theorem {m.group(1)} :\n  {lem[m.group(2)]}.\nProof. exact {m.group(2)}. Qed.\nPrint Assumptions {m.group(1)}.\n")
        else: out.append(l)
    dst=os.path.join(th,os.path.basename(f)[:-3]); txt=''.join(out)
    if not os.path.exists(dst) or open(dst).read()!=txt: open(dst,'w').write(txt); print('wrote',dst)
