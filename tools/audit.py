#!/usr/bin/env python3
# Runs Print Assumptions on every theorem named in MANIFEST.json (needs a finished build); prints a summary.
import json,re,subprocess,os,tempfile
root=os.path.join(os.path.dirname(os.path.abspath(__file__)),'..')
rocq=os.path.join(root,'rocq')
m=json.load(open(os.path.join(root,'MANIFEST.json')))
th=list(dict.fromkeys(t for c in m['claims'] for t in c['theorems']))
mods=[l.strip()[9:-2] for l in open(os.path.join(rocq,'_CoqProject')) if l.startswith('theories/')]
loc={}
for mod in mods:
    for l in open(os.path.join(rocq,'theories',mod+'.v')):
        mm=re.match(r'\s*(?:Theorem|Lemma|Corollary|Definition)\s+(\w+)',l)
        if mm: loc.setdefault(mm.group(1),mod)
f=os.path.join(tempfile.mkdtemp(),'Audit.v')
with open(f,'w') as o:
    for mod in mods: o.write(f'Require Verif.{mod}.\n')
    for t in th: o.write(f'Print Assumptions Verif.{loc[t]}.{t}.\n')
r=subprocess.run(['coqc','-Q','theories','Verif',f],cwd=rocq,capture_output=True,text=True)
closed=r.stdout.count('Closed under the global context')
print(len(th),'theorems,',closed,'closed under the global context')
rest=[l for l in r.stdout.splitlines() if 'Closed under' not in l]
print('\n'.join(rest[:50])); print(r.stderr[:500])
