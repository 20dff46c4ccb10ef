import json,re
props=[json.loads(l) for l in open('/verif/properties.jsonl')]
claims={c['property']:c for c in json.load(open('/verif/MANIFEST.json'))['claims']}
plan=json.load(open('/verif/tools/plan.json'))
t=open('/verif/tools/DESIGN.in.md').read()
rows="| Property | Status | What is modelled | How it is proved | Theorems (full notes in MANIFEST.json) |\n|---|---|---|---|---|\n"
for p in props:
    c=claims[p['id']]; m,h=plan[p['id']]
    rows+="| %s %s | %s | %s | %s | %s |\n"%(p['id'],p['title'],c['status'],m,h,' '.join('`%s`'%x for x in c['theorems']))
open('/verif/DESIGN.md','w').write(t.replace('@@TABLE@@',rows))
