"""Compares what Coq has read for every rule of GrammarModel.v (printed without notations) with Grammar.h, by a route
that shares only the parser of the header with tools/grammar.py. Run by hand after the build, not part of it."""
import re,subprocess,sys,os
sys.argv=['x']
src=open('/verif/tools/grammar.py').read()
src=src[:src.index("out=[]\nW=out.append")]
G={}; exec(src,G)
names=G['names']; sel=G['sel']; parse=G['parse']
v='/tmp/gcheck.v'
open(v,'w').write('From Verif Require Import GrammarModel.\nUnset Printing Notations.\nSet Printing Width 100000.\nSet Printing Depth 100000.\n'+''.join('Print g_%s.\n'%n for n in names))
o=subprocess.run(['coqc','-Q','theories','Verif',v],capture_output=True,text=True,cwd='/verif/rocq').stdout
got={}
for m in re.finditer(r'^g_(\w+) = ?\n?(.*?)\n\s*: re rule',o,re.S|re.M): got[m.group(1)]=m.group(2)
def term(s):
    toks=re.findall(r'"(?:[^"]|"")*"(?:%char)?|[()]|[^\s()]+',s); p=[0]
    def app():
        xs=[]
        while p[0]<len(toks) and toks[p[0]]!=')':
            if toks[p[0]]=='(':
                p[0]+=1; xs.append(app()); assert toks[p[0]]==')'; p[0]+=1
            else: xs.append(toks[p[0]]); p[0]+=1
        return xs[0] if len(xs)==1 else tuple(xs)
    return app()
def flat(x):  # coq term -> normal form
    if isinstance(x,str):
        return ('ref',x)
    h=x[0]
    if h in('Seq','Sor'):
        l=[]
        for y in x[1:]:
            f=flat(y)
            if f[0]==h: l+=f[1]
            else: l.append(f)
        return (h,l)
    if h in('Star','plus','opt','NotAt'): return (h,flat(x[1]))
    if h=='Must': return (h,flat(x[2]))
    if h=='Ref': return ('ref','g_'+x[1][2:])
    if h=='list_of': return (h,flat(x[1]),flat(x[2]))
    if h=='keyword': return ('kw',x[1].strip('"'))
    if h=='one':
        # (cons c (cons c nil))
        l=[]; y=x[1]
        while y!='nil': l.append(coqch(y[1])); y=y[2]
        return ('one',l)
    if h=='range': return ('range',coqch(x[1]),coqch(x[2]))
    if h=='Utf8': return ('utf8',x[1],x[2])
    return ('?',x)
def coqch(t):
    if isinstance(t,tuple) and t[0]=='Ascii': return sum((1<<i) for i,b in enumerate(t[1:]) if b=='true')
    if isinstance(t,tuple) and t[0]=='ascii_of_nat':
        n=0;y=t[1]
        while isinstance(y,tuple): n+=1;y=y[1]
        return n if n else int(t[1])
    return ord(t.replace('%char','')[1:-1].replace('""','"'))
def hch(t):
    if t.startswith("'"):
        b=t[1:-1]; return {'\\\\':92}.get(b, ord(b[-1]))
    return int(t,16)
def num(n):
    # binary positive of N literal is printed as Npos (...): compare textually later
    return n
def hdr(k):
    t,a=k
    def S(l,op='Seq'):
        r=[]
        for y in l:
            f=hdr(y)
            if f[0]==op: r+=f[1]
            else: r.append(f)
        return (op,r) if len(r)>1 else r[0]
    if t.startswith('TAO'): return ('kw',re.search(r'"(\w+)"',t).group(1))
    if t=='seq': return S(a)
    if t=='sor': return S(a,'Sor')
    if t in('star','plus','opt','not_at'): return ({'star':'Star','plus':'plus','opt':'opt','not_at':'NotAt'}[t],S(a))
    if t=='list': return ('list_of',hdr(a[0]),hdr(a[1]))
    if t=='must': return ('Must',S(a))
    if t=='if_must':
        f=hdr(a[0]); r=f[1] if f[0]=='Seq' else [f]
        return ('Seq',r+[('Must',S(a[1:]))])
    if t=='one': return ('one',[hch(x[0]) for x in a])
    if t=='range': return ('range',hch(a[0][0]),hch(a[1][0]))
    if t=='rep': return S([a[1]]*int(a[0][0]))
    if t=='utf8::range': return ('utf8',int(a[0][0],16),int(a[1][0],16))
    if t=='until': return ('ref','until_eolf')
    if t in('space','identifier','xdigit','digit','ellipsis'): return ('ref','p_'+t)
    if t=='ascii::eol': return ('ref','p_eol')
    if t=='utf8::bom': return ('ref','p_bom')
    if t=='bof': return ('ref','Bof')
    if t.endswith('eof'): return ('ref','Eof')
    return ('ref','g_'+t)
bad=0
def npos(x):
    def p(y):
        if y=='xH': return 1
        return 2*p(y[1])+(1 if y[0]=='xI' else 0)
    return p(x[1]) if isinstance(x,tuple) and x[0]=='Npos' else int(re.sub(r'\D','',x)) if isinstance(x,str) else x
for n,b in G['rules']:
    c=flat(term(got[n])); h=hdr(parse(b))
    def fix(c):
        if c[0]=='utf8': return ('utf8',npos(c[1]),npos(c[2]))
        if c[0] in('Seq','Sor'): return (c[0],[fix(y) for y in c[1]])
        if c[0] in('Star','plus','opt','NotAt','Must'): return (c[0],fix(c[1]))
        if c[0]=='list_of': return (c[0],fix(c[1]),fix(c[2]))
        return c
    c=fix(c)
    if c!=h: bad+=1; print(n,'\n  coq',c,'\n  hdr',h)
print(len(G['rules']),'rules,',bad,'differences')
