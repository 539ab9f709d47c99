#!/usr/bin/env python3
"""Writes rocq/theories/RepoGrammars.v: the token trees of the grammars in /repo/tests/grammars and the inputs of /repo/data/test."""
import re,os,glob
REPO='/repo'
# what syn 1.0 refuses as an identifier
KW=set("_ abstract as become box break const continue crate do else enum extern false final fn for if impl in let loop macro match mod move mut override priv pub ref return Self self static struct super trait true type typeof unsafe unsized use virtual where while yield".split())
PUNCT=set("!#$%&*+,-./:;<=>?@^|~")
def lex(s):
    i=0; out=[]; n=len(s)
    while i<n:
        c=s[i]
        if c.isspace(): i+=1; continue
        if s.startswith('//',i):
            while i<n and s[i]!='\n': i+=1
            continue
        m=re.compile(r'r(#*)"').match(s,i)
        if m:
            e=s.index('"'+m.group(1),m.end()); out.append(('str',s[m.end():e])); i=e+1+len(m.group(1)); continue
        if c=='"':
            j=i+1; v=''
            while s[j]!='"':
                if s[j]=='\\':
                    v+={'n':'\n','r':'\r','t':'\t','"':'"','\\':'\\',"'":"'",'0':'\0'}[s[j+1]]; j+=2
                else: v+=s[j]; j+=1
            out.append(('str',v)); i=j+1; continue
        m=re.compile(r"'[a-z_]\w*(?!')").match(s,i)
        if m: out.append(('other',m.group(0))); i=m.end(); continue
        m=re.compile(r"'(\\.|[^'])'").match(s,i)
        if m: out.append(('other',m.group(0))); i=m.end(); continue
        m=re.compile(r'[A-Za-z_]\w*').match(s,i)
        if m:
            w=m.group(0); out.append(('kw' if w in KW else 'id',w)); i=m.end(); continue
        m=re.compile(r'[0-9]\w*').match(s,i)
        if m: out.append(('other',m.group(0))); i=m.end(); continue
        if c in '([{': out.append(('open',c)); i+=1; continue
        if c in ')]}': out.append(('close',c)); i+=1; continue
        assert c in PUNCT,(c,s[i:i+20])
        out.append(('p',c,i+1<n and s[i+1] in PUNCT and not s.startswith('//',i+1))); i+=1
    return out
def tree(toks,i=0):
    l=[]
    while i<len(toks):
        t=toks[i]
        if t[0]=='close': return l,i+1
        if t[0]=='open':
            sub,i=tree(toks,i+1); l.append(('g',t[1],sub)); continue
        l.append(t); i+=1
    return l,i
def text(v): return "["+"; ".join(str(ord(c)) for c in v)+"]%N"
def coq(l):
    r=[]
    for t in l:
        if t[0]=='str': r.append(f"TStr {text(t[1])}")
        elif t[0]=='id': r.append(f'TId "{t[1]}"')
        elif t[0]=='kw': r.append(f'TKw "{t[1]}"')
        elif t[0]=='other': r.append(f'TOther "{t[1]}"')
        elif t[0]=='p': r.append(f'TPunct "{t[1]}"%char {"true" if t[2] else "false"}')
        else: r.append(f"TGroup {dict(zip('([{',['Paren','Bracket','Brace']))[t[1]]} {coq(t[2])}")
    return "["+"; ".join(r)+"]"
def macro(path):
    s=open(path).read(); i=s.index('oak! {'); i=s.index('{',i); d=0
    toks=lex(s[i:] if not path.endswith('json.rs') else s[i:])
    l,_=tree(toks[1:])
    return l
def wrap(s,w=150):
    out='';line=''
    parts=re.split(r'(?<=; )',s)
    for p in parts:
        if len(line)+len(p)>w: out+=line.rstrip()+"\n   "; line=''
        line+=p
    return out+line
names=[os.path.basename(p)[:-3] for p in sorted(glob.glob(REPO+'/tests/grammars/*.rs')) if not p.endswith('mod.rs')]
o=open('/verif/rocq/theories/RepoGrammars.v','w')
o.write('''(** Generated by tools/gen_grammars.py: the token trees of the grammars of /repo/tests/grammars (one definition per
    file, the contents of [oak! { .. }]) and the inputs of /repo/data/test with the results expected by
    tests/testoak.rs:38-76 and 236-247. *)
From Coq Require Import Ascii.
From Verif Require Import Base Front.
Open Scope string_scope. Open Scope nat_scope. Open Scope list_scope.

Inductive expectation := Match | PartialMatch | Error.

''')
for n in names:
    o.write(f"(** tests/grammars/{n}.rs *)\nDefinition {n}_rs : list tok :=\n  {wrap(coq(macro(REPO+'/tests/grammars/'+n+'.rs')))}.\n\n")
# inputs
EXP={'pass':'Match','partial':'PartialMatch','fail':'Error'}
def directory(n):
    l=[]
    for k,e in EXP.items():
        for p in sorted(glob.glob(f"{REPO}/data/test/{n}/run-{k}/*")): l.append((e,open(p,newline='').read()))
    return l
def bulk(n,f):
    l=[]
    for k,e in EXP.items():
        for x in open(f"{REPO}/data/test/{n}/{f}.bulk.{k}",newline='').read().split('\n'):
            l.append((e,x))
        if l and l[-1][1]=='': l.pop()   # str::lines: no line after the last newline
    return l
def w(name,l):
    body=";\n    ".join(f"({e}, {text(v)})" for e,v in l)
    o.write(f"Definition {name}_data : list (expectation * list N) :=\n  [ {body} ].\n\n")
for n in ['ntcc','type_name','calc','calc2','calc3']: w(n,directory(n))
for f in ['str_literal','sequence','any_single_char','choice','repeat','syntactic_predicate','optional','char_class','non_terminal']: w(f,bulk('combinators',f))
o.close()
