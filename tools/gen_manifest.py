#!/usr/bin/env python3
# Generates /verif/MANIFEST.json and checks that every theorem name exists in rocq/theories.
import json, os, re, glob
root=os.path.join(os.path.dirname(os.path.abspath(__file__)),"..")
names=set()
for f in glob.glob(root+"/rocq/theories/*.v"):
    for m in re.finditer(r"^\s*(?:#\[[^\]]*\]\s*)?(?:Theorem|Lemma|Example|Corollary|Fact|Remark|Proposition)\s+([A-Za-z0-9_']+)", open(f).read(), re.M):
        names.add(m.group(1))
C=[]
def c(pid, status, thms, note):
    C.append(dict(property=pid, status=status, theorems=thms.split(), note=note))
C01="C01_from_scratch_consistency"
exec(open(root+"/tools/manifest_entries.py").read())
props=[json.loads(l)["id"] for l in open(root+"/properties.jsonl")]
bad=[(x["property"],t) for x in C for t in x["theorems"] if t not in names]
assert not bad, bad
assert [x["property"] for x in C]==props, set(props)^set(x["property"] for x in C)
listed=set(t for x in C for t in x["theorems"])
for n in sorted(names):
    if re.match(r"C\d\d_",n) and n not in listed: print("not listed:",n)
json.dump({"claims":C}, open(root+"/MANIFEST.json","w"), indent=1)
print(len(C),"claims")
