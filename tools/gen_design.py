import json,re,glob,os
root=os.path.dirname(os.path.dirname(os.path.abspath(__file__)))
ns={}; exec(open(root+'/tools/design_props.py').read(),ns); D=ns['D']
props={d['id']:d for d in map(json.loads,open(root+'/properties.jsonl'))}
where={}
for f in glob.glob(root+'/rocq/theories/*.v'):
    for m in re.finditer(r"^\s*(?:Theorem|Lemma|Corollary)\s+([\w']+)",open(f).read(),re.M):
        where[m.group(1)]=os.path.basename(f)
o=open(root+'/tools/design_head.md').read()
for c in json.load(open(root+'/MANIFEST.json'))['claims']:
    p=c['property']; mod,how=D[p]
    by={}
    for t in c['theorems']: by.setdefault(where[t],[]).append(t)
    o+=f"**{p} {props[p]['title']}** ({c['status']}).  Modelled: {mod}.  Proof: {how}.  "
    o+="  ".join(f"`{f}`: "+", ".join(f"`{t}`" for t in ts)+"." for f,ts in by.items())
    if c['note']: o+="  "+c['note']
    o+="\n\n"
open(root+'/DESIGN.md','w').write(o)
