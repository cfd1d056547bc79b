#!/usr/bin/env python3
"""Generates rocq/theories/LRCert.v: untrusted certificates (checked in Coq by LRProofs.v)."""
import re,json
src=open('/repo/build/parse.y.go').read()
def arr(n):
    m=re.search(r'var %s = \[\.\.\.\]int\d*\{(.*?)\n\}'%n,src,re.S)
    return [int(x) for x in re.findall(r'-?\d+',m.group(1))]
T={n:arr(n) for n in 'yyAct yyPact yyPgo yyR1 yyR2 yyChk yyDef yyExca yyTok1 yyTok2'.split()}
globals().update(T)
LAST=1052;FLAG=-1000
consts=re.findall(r'const (_?[A-Za-z_]+) = (\d+)',src)
names=re.findall(r'"(.*?)",?\n',re.search(r'var yyToknames = \[\.\.\.\]string\{(.*?)\n\}',src,re.S).group(1))
nstates=len(yyPact)
ntok=63
def exca(s,t):
    x=0
    while not(yyExca[x]==-1 and yyExca[x+1]==s): x+=2
    x+=2
    while True:
        if yyExca[x]<0 or yyExca[x]==t: break
        x+=2
    return yyExca[x+1]
def action(s,t):
    n=yyPact[s]
    if n>FLAG:
        n+=t
        if 0<=n<LAST:
            p=yyAct[n]
            if yyChk[p]==t: return ('s',p)
    d=yyDef[s]
    if d==-2:
        d=exca(s,t)
        if d<0: return ('acc',)
    if d==0: return ('err',)
    return ('r',d)
def goto(s,N):
    g=yyPgo[N]; j=g+s+1
    if j>=LAST: return yyAct[g]
    p=yyAct[j]
    if yyChk[p]!=-N: return yyAct[g]
    return p
y=open('/repo/build/parse.y').read().split('\n%%\n')[1]
# strip actions
def strip(y):
    out='';d=0;i=0
    while i<len(y):
        c=y[i]
        if d==0 and y.startswith('//',i):
            i=y.index('\n',i); continue
        if d>0 and y.startswith('//',i):
            i=y.index('\n',i); continue
        if c=="'" and d==0:
            j=y.index("'",i+1); out+=y[i:j+1]; i=j+1; continue
        if d>0 and c in '"\'':
            j=y.index(c,i+1); i=j+1; continue
        if c=='{': d+=1
        elif c=='}': d-=1
        elif d==0: out+=c
        i+=1
    return out
s=strip(y)
toks=re.findall(r"'[^']*'|%prec|[A-Za-z_]+|[|:]",s)
rules=[]
i=0
lhs=None
cur=None
while i<len(toks):
    if i+1<len(toks) and toks[i+1]==':' and re.match('[a-z]',toks[i]):
        if cur is not None: rules.append((lhs,cur))
        lhs=toks[i];cur=[];i+=2;continue
    if toks[i]=='|': rules.append((lhs,cur));cur=[];i+=1;continue
    if toks[i]=='%prec': i+=2;continue
    cur.append(toks[i]);i+=1
rules.append((lhs,cur))
nt={}
for k,(l,r) in enumerate(rules):
    n=yyR1[k+1]
    assert yyR2[k+1]==len(r),(k,l,r,yyR2[k+1])
    assert nt.setdefault(l,n)==n
tokn={}
tn=names
m=re.search(r'var yyToknames = \[\.\.\.\]string\{(.*?)\n\}',src,re.S).group(1)
tn=[eval('"'+x+'"') for x in re.findall(r'^\t"(.*)",$',m,re.M)]
for i,x in enumerate(tn): tokn[x]=i+1
symn={}
for l,r in rules:
    for x in r:
        if x in nt: symn[x]=-nt[x]
        else: symn[x]=tokn[x]
for x in nt: symn[x]=-nt[x]
TK=[i for i in range(1,63)]
preds={s:set() for s in range(nstates)}
def reds(s):
    R=set()
    for a in [0]+TK:
        x=action(s,a)
        if x[0]=='r': R.add(x[1])
    return R
RED={s:reds(s) for s in range(nstates)}
reach={0}
changed=True
for s in range(nstates):
    for a in TK:
        x=action(s,a)
        if x[0]=='s': pass
while changed:
    changed=False
    for s in list(reach):
        for a in TK:
            x=action(s,a)
            if x[0]=='s':
                if s not in preds[x[1]]: preds[x[1]].add(s); changed=True
                if x[1] not in reach: reach.add(x[1]); changed=True
        for r in RED[s]:
            if r==1: continue
            l,rhs=rules[r-1]
            B={s}
            for X in reversed(rhs):
                for b in B: assert yyChk[b]==symn[X],(s,r,b)
                B=set().union(*[preds[b] for b in B]) if B else set()
            for q in B:
                g=goto(q,nt[l])
                if q not in preds[g]: preds[g].add(q); changed=True
                reach.add(g)
print(len(reach), [s for s in range(nstates) if s not in reach], sum(map(len,preds.values())))
for g in range(nstates):
    for q in preds[g]:
        X=yyChk[g]
        if X<0: assert goto(q,-X)==g
        else: assert action(q,X)==('s',g)
acc=[(s,a) for s in reach for a in TK if action(s,a)[0]=='acc']
print('stop:',acc)
# termination: effectively unit/eps reductions
nullable=set()
ch=True
while ch:
    ch=False
    for l,r in rules:
        if l not in nullable and all(x in nullable for x in r): nullable.add(l);ch=True
print(nullable)
def edges(p,a):
    x=action(p,a)
    if x[0]!='r' or x[1]==1: return []
    l,rhs=rules[x[1]-1]
    nn=sum(1 for y in rhs if y not in nullable)
    if nn> (0 if l in nullable else 1): return []
    B={p}
    for X in rhs: B=set().union(*[preds[b] for b in B])
    return {goto(q,nt[l]) for q in B}
import functools,sys
sys.setrecursionlimit(10000)
def depth(a):
    memo={}
    def go(p,stk=()):
        if p in memo: return memo[p]
        if p in stk: raise Exception('cycle %s %s'%(a,stk))
        m=0
        for g in edges(p,a): m=max(m,1+go(g,stk+(p,)))
        memo[p]=m; return m
    for p in reach: go(p)
    return memo
D={a:depth(a) for a in [0]+TK}
print('max depth',max(max(d.values()) for d in D.values()))
# lookahead-independent
U=None
try:
    memo={}
    def go(p,stk=()):
        if p in memo: return memo[p]
        if p in stk: raise Exception('cycle')
        m=0
        for a in [0]+TK:
            for g in edges(p,a): m=max(m,1+go(g,stk+(p,)))
        memo[p]=m; return m
    for p in reach: go(p)
    print('indep max',max(memo.values()))
except Exception as e: print(e)
def emit():
    o=["(** Generated by tools/lrcert.py: certificates about the automaton of LRTables.v, checked in LRProofs.v. *)",
    "From Coq Require Import ZArith List.","Import ListNotations.","Local Open Scope Z_scope.","",
    "(** For each state the states that may be below it on the stack. *)","Definition preds : list (list Z) :=",
    "  ["+";\n   ".join("["+"; ".join(map(str,sorted(preds[s])))+"]" for s in range(nstates))+"].",
    "(** For each state how many reductions that do not use up a token-bearing entry may follow. *)",
    "Definition chain_bound : list Z :=",
    "  ["+"; ".join(str(memo.get(s,0)) for s in range(nstates))+"]."]
    return "\n".join(o)+"\n"
open('/verif/rocq/theories/LRCert.v','w').write(emit())
