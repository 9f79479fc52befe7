import glob,re,os
R=os.path.join(os.path.dirname(os.path.abspath(__file__)),'..')
head=open(R+'/tools/DESIGN.template.md').read()
F={}
for f in sorted(glob.glob(R+'/rocq/theories/*.v')):
    for m in re.finditer(r'^(?:Theorem|Lemma|Corollary)\s+((C\d\d)\w*refuted\w*)',open(f).read(),re.M): F.setdefault(m[2],[]).append(m[1])
fnd='\n'.join(f"* {k}: "+', '.join(f'`{x}`' for x in sorted(set(v))) for k,v in sorted(F.items()))
open(R+'/DESIGN.md','w').write(head.replace('@@FINDINGS@@',fnd))
