# checks/fixes citations "path/file.go:a-b [Name]" in theories/*.v: the range must be that of func Name.
import re,glob,os,sys
fix='--fix' in sys.argv
cache={}
def ranges(f):
    if f in cache: return cache[f]
    L=open('/repo/'+f).read().split('\n'); d={}; i=0
    while i<len(L):
        m=re.match(r'func (?:\([^)]*\) )?(\w+)',L[i])
        if m:
            j=i
            if not L[i].rstrip().endswith('}'):
                while j<len(L) and not L[j].startswith('}'): j+=1
            d.setdefault(m.group(1),[]).append((i+1,j+1))
            i=j
        i+=1
    cache[f]=d; return d
for v in sorted(glob.glob('/verif/rocq/theories/*.v')):
    s=open(v).read()
    def rep(m):
        f,a,b,ws,n=m.group(1),int(m.group(2)),int(m.group(3)),m.group(4),m.group(5)
        if not os.path.exists('/repo/'+f): print(v,'no file',f); return m.group(0)
        r=ranges(f).get(n.split('.')[-1])
        if not r: return m.group(0)
        for x,y in r:
            if a<=x and y<=b or x<=a<=b<=y and not (a,b)==(x,y) and (b-a)*2>(y-x) : return m.group(0)
        for x,y in r:
            if abs(x-a)<40: 
                print(os.path.basename(v),m.group(0).replace('\n',' '),'->',x,y)
                return f"{f}:{x}-{y}{ws}[{n}]"
        print(os.path.basename(v),'?',m.group(0),r); return m.group(0)
    t=re.sub(r'([\w/.]+\.go):(\d+)-(\d+)(\s+)\[([\w.]+)\]',rep,s)
    if fix and t!=s: open(v,'w').write(t)
