# Turns results of a batch of seeded bugs into lines of seeded/LOG.jsonl.
# usage: seedlog.py BATCH.json RESULTS.jsonl [TIGHTENED.json]
# BATCH: id, file, old, new, defn, edit, claim; RESULTS: id, errs ("File.v:lemma" where the build stopped).
# Theorems that failed: property theorems in files that fail or that need a failing file.
import json, re, os, sys
T='/verif/rocq/theories/'
req={}; thms={}
for f in os.listdir(T):
    if not f.endswith('.v'): continue
    s=open(T+f).read()
    req[f[:-2]]=set(x for l in re.findall(r'From Verif Require (?:Import|Export) ([^.]*)\.',s) for x in l.split())
    thms[f[:-2]]=re.findall(r'^Theorem (\w+)',s,re.M)
def dependents(bad):
    bad=set(bad); n=0
    while n!=len(bad):
        n=len(bad); bad|={f for f in req if req[f]&bad}
    return bad
batch={m['id']:m for m in json.load(open(sys.argv[1]))}
tight=json.load(open(sys.argv[3])) if len(sys.argv)>3 else {}
out=open('/verif/seeded/LOG.jsonl','a')
for l in open(sys.argv[2]):
    r=json.loads(l)
    if r['id'] not in batch: continue
    m=batch[r['id']]
    direct=[e for e in r['errs'] if ':' in e]
    bad=[e.split('.v:')[0] for e in direct]
    failed=[]
    for f in sorted(dependents(bad)):
        if not f.startswith('Prop'): continue
        ts=thms[f]
        if f in bad:
            here=[e.split(':')[1] for e in direct if e.startswith(f+'.v:')]
            ts=[t for t in ts if t in here] or ts
        failed+=ts
    t=tight.get(r['id'],{})
    out.write(json.dumps(dict(definition=m['file']+': '+m['defn'],edit=m['edit'],old=m['old'],new=m['new'],claim=m['claim'],
      stopped_at=direct,failed=failed,tightened=t.get('tightened',[]),note=t.get('note','')))+'\n')
