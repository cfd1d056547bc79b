#!/usr/bin/env python3
"""Generates rocq/theories/LRItems.v: an unambiguous grammar that refines the one of build/parse.y, and for each
state of the automaton the items that may be current there (both checked in Coq by LRComplete.v)."""
import re,json
src=open('/repo/build/parse.y.go').read()
def arr(n):
    m=re.search(r'var %s = \[\.\.\.\]int\d*\{(.*?)\n\}'%n,src,re.S)
    return [int(x) for x in re.findall(r'-?\d+',m.group(1))]
T={n:arr(n) for n in 'yyAct yyPact yyPgo yyR1 yyR2 yyChk yyDef yyExca yyTok1 yyTok2'.split()}
globals().update(T)
LAST=1052;FLAG=-1000
consts=re.findall(r'const (_?[A-Za-z_]+) = (\d+)',src)
names=re.findall(r'"(.*?)",?\n',re.search(r'var yyToknames = \[\.\.\.\]string\{(.*?)\n\}',src,re.S).group(1))
nstates=len(yyPact)
ntok=63
def exca(s,t):
    x=0
    while not(yyExca[x]==-1 and yyExca[x+1]==s): x+=2
    x+=2
    while True:
        if yyExca[x]<0 or yyExca[x]==t: break
        x+=2
    return yyExca[x+1]
def action(s,t):
    n=yyPact[s]
    if n>FLAG:
        n+=t
        if 0<=n<LAST:
            p=yyAct[n]
            if yyChk[p]==t: return ('s',p)
    d=yyDef[s]
    if d==-2:
        d=exca(s,t)
        if d<0: return ('acc',)
    if d==0: return ('err',)
    return ('r',d)
def goto(s,N):
    g=yyPgo[N]; j=g+s+1
    if j>=LAST: return yyAct[g]
    p=yyAct[j]
    if yyChk[p]!=-N: return yyAct[g]
    return p
y=open('/repo/build/parse.y').read().split('\n%%\n')[1]
# strip actions
def strip(y):
    out='';d=0;i=0
    while i<len(y):
        c=y[i]
        if d==0 and y.startswith('//',i):
            i=y.index('\n',i); continue
        if d>0 and y.startswith('//',i):
            i=y.index('\n',i); continue
        if c=="'" and d==0:
            j=y.index("'",i+1); out+=y[i:j+1]; i=j+1; continue
        if d>0 and c in '"\'':
            j=y.index(c,i+1); i=j+1; continue
        if c=='{': d+=1
        elif c=='}': d-=1
        elif d==0: out+=c
        i+=1
    return out
s=strip(y)
toks=re.findall(r"'[^']*'|%prec|[A-Za-z_]+|[|:]",s)
rules=[]
i=0
lhs=None
cur=None
while i<len(toks):
    if i+1<len(toks) and toks[i+1]==':' and re.match('[a-z]',toks[i]):
        if cur is not None: rules.append((lhs,cur))
        lhs=toks[i];cur=[];i+=2;continue
    if toks[i]=='|': rules.append((lhs,cur));cur=[];i+=1;continue
    if toks[i]=='%prec': i+=2;continue
    cur.append(toks[i]);i+=1
rules.append((lhs,cur))
nt={}
for k,(l,r) in enumerate(rules):
    n=yyR1[k+1]
    assert yyR2[k+1]==len(r),(k,l,r,yyR2[k+1])
    assert nt.setdefault(l,n)==n
tokn={}
tn=names
m=re.search(r'var yyToknames = \[\.\.\.\]string\{(.*?)\n\}',src,re.S).group(1)
tn=[eval('"'+x+'"') for x in re.findall(r'^\t"(.*)",$',m,re.M)]
for i,x in enumerate(tn): tokn[x]=i+1
symn={}
for l,r in rules:
    for x in r:
        if x in nt: symn[x]=-nt[x]
        else: symn[x]=tokn[x]
for x in nt: symn[x]=-nt[x]
# nonterminals: name -> yacc name
ER={}
P=[]   # (lhs, rhs, rule or None)
def nt_(n,y): ER[n]=y
def p(l,rhs,r=None): P.append((l,rhs.split() if isinstance(rhs,str) else rhs,r))
def L(n,o): return 'L%d%s'%(n,'t' if o else 'f')
for n in range(13):
    for o in (0,1): nt_(L(n,o),'test')
for n in ['Test','Item']: nt_(n,'test')
for a,b in dict(Prim='primary_expr',PrimN='primary_expr',Num='number',IntN='number',Str='string',Id='ident',Expr='expr',LBody='expr',ExprO='expr_opt',TestO='test_opt',
  Tests='tests',TestsO='tests_opt',CommaO='comma_opt',Commas='commas',CommasO='commas_opt',KV='keyvalue',KVN='keyvalues_no_comma',KVS='keyvalues',Vars='loop_vars',
  Args='arguments',ArgsO='arguments_opt',Arg='argument',LArgs='load_arguments',LArg='load_argument',ParamsO='parameters_opt',TParamsO='parameters_type_opt',Params='parameters',TParams='parameters_type',
  Param='parameter',TParam='parameter_type',
  ForCf='for_clause',ForCt='for_clause',FIf='for_clause_with_if_clauses_opt',FIt='for_clause_with_if_clauses_opt',FCf='for_clauses_with_if_clauses_opt',FCt='for_clauses_with_if_clauses_opt',
  Small='small_stmt',Cont='small_stmts_continuation',SemiO='semi_opt',Simple='simple_stmt',DefH='def_header',DefT='def_header_type_opt',Elif='elif',
  StmtL='stmt',Comms='comments',LBr='linebreaks_opt').items(): nt_(a,b)
for k in 'ft':
    for a,b in dict(Stmts='stmts',StmtB='stmt',Block='block_stmt',IfC='if_chain',IfE='if_else_block',Suite='suite').items(): nt_(a+k,b)
nt_('Start','file')
BIN=[(3,[109]),(4,[110]),(5,[101,102,103,104,105,106,107,108]),(6,[111]),(7,[113]),(8,[112]),(9,[114,115]),(10,[99,100]),(11,[95,96,97,98]),(2,[116])]
for lv,rs in BIN:
    for r in rs:
        op=rules[r-1][1][1:-1]
        for o in (0,1): p(L(lv,o),[L(lv,0)]+op+[L(lv+1,o)],r)
for n in range(12):
    for o in (0,1): p(L(n,o),[L(n+1,o)])
for o in (0,1):
    p(L(1,o),[L(1,0),'_IF','Test','_ELSE',L(2,o)],117)
    for r in (91,92,93,94): p(L(12,o),[rules[r-1][1][0],L(12,o)],r)
    p('Test',[L(0,o)]); p('Item',[L(2,o)])
p(L(12,0),'Prim',89)
p(L(12,1),"_LAMBDA ParamsO ':' LBody",90)
p('LBody','Test',85)
p('Prim','PrimN'); p('Prim','IntN',41)
p('PrimN','Id',40);p('PrimN','Num',41);p('PrimN','Str',42)
p('PrimN',"PrimN '.' _IDENT",43)
p('PrimN',"_LOAD '(' CommasO Str Commas LArgs CommasO ')'",44)
p('PrimN',"Prim '(' ArgsO ')'",45)
p('PrimN',"Prim '[' Expr ']'",46)
p('PrimN',"Prim '[' ExprO ':' TestO ']'",47)
p('PrimN',"Prim '[' ExprO ':' TestO ':' TestO ']'",48)
p('PrimN',"'[' TestsO ']'",49)
for o in 'ft':
    p('PrimN',"'[' Test FC%s ']'"%o,50)
    p('PrimN',"'{' KV FC%s '}'"%o,51)
p('PrimN',"'{' KVS '}'",52)
p('PrimN',"'{' Tests CommaO '}'",53)
p('PrimN',"'(' TestsO ')'",54)
p('ArgsO','',55);p('ArgsO','Args CommasO',56);p('Args','CommasO Arg',57);p('Args','Args Commas Arg',58)
p('Arg','Test',59);p('Arg',"Id '=' Test",60);p('Arg',"'*' Test",61);p('Arg',"_STAR_STAR Test",62)
p('LArgs','LArg',63);p('LArgs',"LArgs ',' LArg",64);p('LArg','Str',65);p('LArg',"Id '=' Str",66)
p('ParamsO','',67);p('ParamsO','Params CommaO',68);p('TParamsO','',69);p('TParamsO','TParams CommaO',70)
p('Params','Param',71);p('Params',"Params ',' Param",72);p('TParams','TParam',73);p('TParams',"TParams ',' TParam",74)
p('Param','Id',75);p('Param',"Id '=' Test",76);p('Param',"'*' Id",77);p('Param',"'*'",78);p('Param',"_STAR_STAR Id",79)
p('TParam','Param',80);p('TParam',"Id ':' Test",81);p('TParam',"Id ':' Test '=' Test",82);p('TParam',"'*' Id ':' Test",83);p('TParam',"_STAR_STAR Id ':' Test",84)
p('Expr','Test',85);p('Expr',"Expr ',' Item",86)
p('ExprO','',87);p('ExprO','Expr',88)
p('Tests','Test',118);p('Tests',"Tests Commas Test",119)
p('TestO','',120);p('TestO','Test',121)
p('TestsO','',122);p('TestsO','Tests CommasO',123)
p('CommaO','',124);p('CommaO',"','",125);p('Commas',"','",126);p('Commas',"Commas ','",127);p('CommasO','',128);p('CommasO','Commas',129)
p('KV',"Test ':' Test",130);p('KVN','KV',131);p('KVN','KVN Commas KV',132);p('KVS','',133);p('KVS','KVN',134);p('KVS','KVN Commas',135)
p('Vars','Prim',136);p('Vars',"Vars ',' Prim",137)
p('Str','_STRING',138);p('Id','_IDENT',139);p('Num',"_INT '.' _INT",140);p('Num',"_INT '.'",141);p('Num',"'.' _INT",142);p('IntN',"_INT",143)
for o in 'ft':
    p('ForC'+o,'_FOR Vars _IN L2'+o,144)
    p('FI'+o,'ForC'+o,145)
    p('FI'+o,'FIf _IF L2'+o,146)
    p('FC'+o,'FI'+o,147)
    for o2 in 'ft': p('FC'+o,'FC%s FI%s'%(o2,o),148)
for k in 'ft':
    p('Start','Stmts%s _EOF'%k,1)
p('Stmtsf','',9);p('Stmtsf',"Stmtsf '\\n'",11)
for k in 'ft':
    p('Stmtsf',"Stmts%s _COMMENT '\\n'"%k,12)
    p('Stmtsf',"Stmts%s StmtL"%k,10)
    for j in 'ft': p('Stmts'+j,"Stmts%s StmtB%s"%(k,j),10)
p('StmtL','Simple',13)
for k in 'ft':
    p('StmtB'+k,'Block'+k,14)
    p('Block'+k,"DefT ':' Suite"+k,18)
    p('Block'+k,"_FOR Vars _IN Expr ':' Suite"+k,19)
    p('Block'+k,'IfE'+k,20)
    p('IfC'+k,"_IF Expr ':' Suite"+k,21)
    p('IfE'+k,'IfC'+k,23)
    for j in 'ft':
        p('IfC'+k,"IfC%s Elif Expr ':' Suite%s"%(j,k),22)
        p('IfE'+k,"IfC%s _ELSE ':' Suite%s"%(j,k),24)
    p('Suitef',"'\\n' Comms _INDENT Stmts%s _UNINDENT"%k,2)
p('Suitet','Simple LBr',3)
p('LBr','',4);p('LBr',"LBr '\\n'",5)
p('Comms','',6);p('Comms',"Comms _COMMENT '\\n'",7);p('Comms',"Comms '\\n'",8)
p('DefH',"_DEF _IDENT '(' TParamsO ')'",15);p('DefT','DefH',16);p('DefT','DefH _ARROW Test',17)
p('Elif','_ELSE _IF',25);p('Elif','_ELIF',26)
p('Simple',"Small Cont SemiO '\\n'",27);p('Cont','',28);p('Cont',"Cont ';' Small",29)
p('Small','Expr',30);p('Small','_RETURN Expr',31);p('Small','_RETURN',32);p('Small',"Expr '=' Expr",33);p('Small','Expr _AUGM Expr',34);p('Small','_PASS',35);p('Small','_BREAK',36);p('Small','_CONTINUE',37)
p('SemiO','',38);p('SemiO',"';'",39)
# sanity
for l,rhs,r in P:
    er=[ER.get(x,x) for x in rhs]
    if r is None: assert er==[ER[l]],(l,rhs)
    else: assert (ER[l],er)==(rules[r-1][0],list(rules[r-1][1])),(l,rhs,r,rules[r-1])
    for x in rhs: assert x in ER or x in tokn,(x)
used={r for _,_,r in P}
NT=list(ER)
by={n:[i for i,q in enumerate(P) if q[0]==n] for n in NT}
nullb=set();first={n:0 for n in NT}
ch=True
while ch:
    ch=False
    for l,rhs,r in P:
        m=0;nl=True
        for x in rhs:
            if x in ER:
                m|=first[x]
                if x not in nullb: nl=False;break
            else: m|=1<<tokn[x];nl=False;break
        if m|first[l]!=first[l]: first[l]|=m;ch=True
        if nl and l not in nullb: nullb.add(l);ch=True
def FIRST(rest,Lk):
    m=0
    for x in rest:
        if x in ER:
            m|=first[x]
            if x not in nullb: return m
        else: return m|1<<tokn[x]
    return m|Lk
def closure(kern):
    cl={}
    work=[]
    def add(A,m):
        o=cl.get(A,0)
        if o|m!=o: cl[A]=o|m;work.append(A)
    for (i,d),Lk in kern.items():
        rhs=P[i][1]
        if d<len(rhs) and rhs[d] in ER: add(rhs[d],FIRST(rhs[d+1:],Lk))
    while work:
        A=work.pop()
        for i in by[A]:
            rhs=P[i][1]
            if rhs and rhs[0] in ER: add(rhs[0],FIRST(rhs[1:],cl[A]))
    return cl
K={s:{} for s in range(nstates)}
start=[i for i in by['Start']]
errs=set()
def allitems(s):
    cl=closure(K[s])
    if s==0: 
        pass
    it=dict(K[s])
    for A,m in cl.items():
        for i in by[A]:
            it[(i,0)]=it.get((i,0),0)|m
    return it
K[0]={(i,0):1<<tokn['_EOF'] for i in start}
work=[0]
inq={0}
while work:
    s=work.pop(0);inq.discard(s)
    for (i,d),Lk in allitems(s).items():
        l,rhs,r=P[i]
        if d<len(rhs):
            x=rhs[d]
            if x in ER: g=goto(s,nt[ER[x]])
            else:
                a=action(s,tokn[x])
                if a[0]!='s': errs.add((s,'shift',x,i,d,a)); continue
                g=a[1]
            if r is None: continue
            o=K[g].get((i,d+1),0)
            if o|Lk!=o:
                K[g][(i,d+1)]=o|Lk
                if g not in inq: inq.add(g);work.append(g)
inv={v:k for k,v in tokn.items()}
for s in range(nstates):
    for (i,d),Lk in allitems(s).items():
        l,rhs,r=P[i]
        if d==len(rhs) and r not in(None,1):
            bad=[inv[a] for a in range(64) if Lk>>a&1 and action(s,a)!=('r',r)]
            if bad: errs.add((s,'reduce',r,l,' '.join(rhs),' '.join(bad)))

assert not errs,errs
tname={"'%'":'t_percent',"'('":'t_lparen',"')'":'t_rparen',"'*'":'t_star',"'+'":'t_plus',"','":'t_comma',"'-'":'t_minus',"'.'":'t_dot',"'/'":'t_slash',"':'":'t_colon',"'<'":'t_lt',"'='":'t_assign',"'>'":'t_gt',"'['":'t_lbrack',"']'":'t_rbrack',"'{'":'t_lbrace',"'}'":'t_rbrace',"'|'":'t_bar',"'&'":'t_amp',"'^'":'t_caret',"'~'":'t_tilde',"'\\n'":'t_newline',"';'":'t_semi'}
def cn(x):
    if x in ER:
        m=re.match(r'^L(\d+)([ft])$',x)
        if m: return '(G_level %s %s)'%(m.group(1),'true' if m.group(2)=='t' else 'false')
        m=re.match(r'^(ForC|FI|FC|Stmts|StmtB|Block|IfC|IfE|Suite)([ft])$',x)
        if m: return '(G_%s %s)'%(m.group(1),'true' if m.group(2)=='t' else 'false')
        return 'G_'+x
    return tname[x] if x in tname else 'T'+x
out=open('rocq/theories/LRItems.v','w')
w=lambda s: out.write(s+'\n')
w('(** Generated by tools/lritems.py: an unambiguous refinement of the grammar of build/parse.y, and for each state of the')
w('    automaton of LRTables.v the items of that grammar that may be current there.  Checked in LRComplete.v. *)')
w('From Verif Require Import LRTables.')
w('From Coq Require Import ZArith List.\nImport ListNotations.\nLocal Open Scope Z_scope.\n')
idx={n:-(i+1) for i,n in enumerate(NT)}
w('(** Nonterminals (negative numbers).  A Boolean tells "ends with a lambda" for expressions and clauses, "ends with a\n    one-line suite" for statements. *)')
w('Definition G_level (n : nat) (opn : bool) : Z := - (2 * Z.of_nat n + (if opn then 2 else 1)).')
fam={}
for n in NT:
    if re.match(r'^L\d+[ft]$',n):
        m=re.match(r'^L(\d+)([ft])$',n); assert idx[n]==-(2*int(m.group(1))+(2 if m.group(2)=='t' else 1))
        continue
    m=re.match(r'^(ForC|FI|FC|Stmts|StmtB|Block|IfC|IfE|Suite)([ft])$',n)
    if m: fam.setdefault(m.group(1),{})[m.group(2)]=idx[n]
    else: w('Definition G_%s : Z := %d.'%(n,idx[n]))
for f,d in fam.items(): w('Definition G_%s (k : bool) : Z := if k then %d else %d.'%(f,d['t'],d['f']))
w('(** The symbol of build/parse.y that each of them stands for. *)')
w('Definition erased : list Z :=\n  [0; '+'; '.join('N_'+ER[n] for n in NT)+'].')
w('(** Productions: left side, right side, and the rule of build/parse.y.  Those without a rule do nothing in the automaton. *)')
w('Definition prods : list (Z * list Z * option Z) :=\n  [%s].'%';\n   '.join('(%s, [%s], %s)'%(cn(l).strip('()') if ' ' not in cn(l) else cn(l),'; '.join(cn(x) for x in rhs),'None' if r is None else 'Some %d'%r) for l,rhs,r in P))
masks=sorted({m for k in K.values() for m in k.values()})
mi={m:i for i,m in enumerate(masks)}
w('(** Sets of terminals, as bit masks. *)')
w('Definition masks : list Z :=\n  [%s].'%'; '.join(hex(m) for m in masks))
w('(** For each state: production, position in its right side, and what may follow it (an index in [masks]). *)')
w('Definition kernels : list (list (Z * Z * Z)) :=\n  [%s].'%';\n   '.join('['+'; '.join('(%d, %d, %d)'%(i,d,mi[m]) for (i,d),m in sorted(K[st].items()))+']' for st in range(nstates)))
