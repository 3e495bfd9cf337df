#!/usr/bin/env python3
"""Prints each citation in the model files with the first line of code it refers to."""
import re,glob,os,subprocess,sys
files=subprocess.run("find /repo/oryx -name '*.py'",shell=True,capture_output=True,text=True).stdout.split()
for f in sorted(glob.glob('/verif/rocq/theories/*Model.v')):
    if len(sys.argv)>1 and not any(a in f for a in sys.argv[1:]): continue
    head=open(f).read()[:600]
    for ln,l in enumerate(open(f),1):
        for m in re.finditer(r'([a-zA-Z_/]+\.py):(\d+)-(\d+)',l):
            c=[p for p in files if p.endswith('/'+m.group(1).split('/')[-1])]
            pref=[p for p in c if p.replace('/repo/','') in head] or c
            if len(pref)>1:
                sub=[p for p in pref if os.path.dirname(p).split('/')[-1] in head]; pref=sub or pref
            p=pref[0]; L=open(p).read().split("\n")+[""]*500
            print(f"{os.path.basename(f)}:{ln} {m.group(0)} | {L[int(m.group(2))-1].strip()[:60]} ... {L[int(m.group(3))-1].strip()[:40]}")
