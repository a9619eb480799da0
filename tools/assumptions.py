"""Regenerate ASSUMPTIONS.md: what `Print Assumptions` lists for every theorem in MANIFEST.json.
Needs a built /verif/rocq.  Usage: python3 tools/assumptions.py"""
import json,glob,re,subprocess,os,tempfile,collections
os.chdir(os.path.join(os.path.dirname(os.path.abspath(__file__)),'..'))
man=json.load(open('MANIFEST.json'))
where={}
for f in glob.glob('rocq/theories/*.v'):
    for m in re.finditer(r'^(?:Theorem|Lemma|Corollary)\s+(\w+)',open(f).read(),re.M):
        where.setdefault(m.group(1),os.path.basename(f)[:-2])
ths=[(c['property'],t) for c in man['claims'] for t in c['theorems']]
byf=collections.defaultdict(list)
for p,t in ths: byf[where[t]].append((p,t))
out={}
for f,l in byf.items():
    src=f"From Verif Require {f}.\n"+''.join(f'Print Assumptions Verif.{f}.{t}.\n' for p,t in l)
    d=tempfile.mkdtemp(); open(d+'/a.v','w').write(src)
    r=subprocess.run(['coqc','-Q','rocq/theories','Verif',d+'/a.v'],capture_output=True,text=True)
    assert r.returncode==0,r.stderr
    blocks=re.split(r'^(?=Axioms:|Closed under)',r.stdout,flags=re.M)[1:]
    assert len(blocks)==len(l),(f,len(blocks),len(l))
    for (p,t),b in zip(l,blocks):
        out[t]=tuple(sorted(set(re.findall(r'^([\w.]+)(?= :|$)',b,re.M))-{'Axioms'})) if b.startswith('Axioms') else ()
keys=collections.Counter(out.values())
names={k:f'A{i}' for i,(k,_) in enumerate(keys.most_common())}
s='# What `Print Assumptions` lists for each theorem\n\nGenerated by tools/assumptions.py from the built development. All axioms are those of the Coq standard library.\n\n'
for k,n in names.items(): s+=f'* **{n}** ({keys[k]} theorems): '+(', '.join(f'`{x}`' for x in k) if k else 'closed under the global context (no axioms)')+'\n'
s+='\n| property | theorem | file | axioms |\n|---|---|---|---|\n'
for p,t in ths: s+=f'| {p} | {t} | {where[t]}.v | {names[out[t]]} |\n'
open('ASSUMPTIONS.md','w').write(s)
print({n:(k,keys[k]) for k,n in names.items()})
