#!/usr/bin/env python3
"""Applies model edits one by one in a scratch copy and logs which theorems stop proving.
usage: mutate.py mutants.json   (entries: definition, file, old, new, claim [, count])"""
import json, os, re, shutil, subprocess, sys
SRC=os.environ.get('MUTSRC','/verif/rocq'); SCR='/tmp/scratch/rocq'; LOG='/verif/seeded/LOG.jsonl'
def run(cmd, **k): return subprocess.run(cmd, shell=True, capture_output=True, text=True, **k)
def sync():
    os.makedirs('/tmp/scratch', exist_ok=True)
    run(f'rsync -a --delete {SRC}/ {SCR}/ || (rm -rf {SCR}; cp -a {SRC} {SCR})')
def enclosing(path, line):
    name=None
    for i,l in enumerate(open(path),1):
        m=re.match(r'\s*(?:#\[.*\]\s*)?(Theorem|Lemma|Example|Definition|Fixpoint|Corollary|Instance|Program Definition)\s+(\w+)',l)
        if m: name=m.group(2)
        if i>=line: break
    return name
muts=json.load(open(sys.argv[1]))
for m in muts:
    sync()
    f=f"{SCR}/theories/{m['file']}.v"; s=open(f).read(); n=s.count(m['old'])
    want=m.get('count',1)
    if n!=want: print('BAD', m['definition'], 'occurrences', n, 'expected', want); continue
    open(f,'w').write(s.replace(m['old'],m['new']))
    run('coq_makefile -f _CoqProject -o Makefile',cwd=SCR)
    r=run('make -k -j3',cwd=SCR)
    failed=[]
    for mm in re.finditer(r'File "\./?(theories/\w+\.v)", line (\d+)',r.stdout+r.stderr):
        p=mm.group(1); 
        err=(r.stdout+r.stderr)[mm.end():mm.end()+200]
        if 'Warning' in err[:60]: continue
        failed.append(os.path.basename(p)[:-2]+'.'+str(enclosing(f'{SCR}/{p}',int(mm.group(2)))))
    failed=list(dict.fromkeys(failed))
    killed=r.returncode!=0 and failed
    print('KILLED' if killed else 'SURVIVED', m['definition'], '|', m['edit'] if 'edit' in m else m['new'][:60], '|', failed, flush=True)
    e=dict(definition=f"{m['file']}.v:{m['definition']}", edit=m.get('edit') or f"{m['old']} => {m['new']}", claim=m['claim'],
           theorems_failed=failed, theorems_tightened=[])
    if not killed: e['note']='survived at first attempt'
    json.dump(e,open('/tmp/mut/last.json','w'))
    open('/tmp/mut/pending.jsonl','a').write(json.dumps(e)+'\n')
