# helper: build json from python list
import json,sys
def dump(name,file,only,L):
    out=[]
    for n,(d,old,new,edit,claim,*rest) in enumerate(L,1):
        r={"id":f"{name}{n}","file":file.removesuffix(".v"),"definition":d,"old":old,"new":new,"edit":edit,"claim":claim}
        if only: r["only"]=[o.removesuffix(".v") for o in only]
        if rest: r.update(rest[0])
        out.append(r)
    json.dump(out,open(f'/tmp/mut/{name}.json','w'),indent=1)
