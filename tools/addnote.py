import json,sys
n=json.load(open('/verif/tools/notes.json'))
a=sys.argv[1:]
n[a[0]]={"note":a[-1]}
if len(a)==3: n[a[0]]["status"]=a[1]
json.dump(dict(sorted(n.items())),open('/verif/tools/notes.json','w'),indent=1)
