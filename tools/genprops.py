#!/usr/bin/env python3
"""Generate rocq/theories/Props*.v from the marked lemmas of the *Runs.v files.

A marked lemma is preceded by a comment  (*@ Cnn[_suffix][,Cmm[_suffix]...] doc text *)  and the
file contains one block  (*@HEADER ... @*)  (imports and section opening), and
(*@FOOTER ... @*) (section closing).  The property file repeats every marked
statement verbatim as a Theorem  Cnn_<lemma>[_suffix]  closed by `exact lemma`,
followed by Print Assumptions.  Examples marked (*@EX Cnn *) are copied likewise.
"""
import re,sys,os,glob
d=os.path.join(os.path.dirname(os.path.abspath(__file__)),'..','rocq','theories')
for src in sorted(glob.glob(os.path.join(d,'*Runs.v'))):
    s=open(src).read()
    base=os.path.basename(src)[:-len('Runs.v')]
    hdr=re.search(r'\(\*@HEADER(.*?)@\*\)',s,re.S).group(1).strip()
    ftr=re.search(r'\(\*@FOOTER(.*?)@\*\)',s,re.S)
    ftr=ftr.group(1).strip() if ftr else ''
    out=[f'(** GENERATED by tools/genprops.py from {base}Runs.v: property theorems only.\n    Every proof is the lemma of the same statement proved there. *)\n{hdr}\n']
    names=[]
    for m in re.finditer(r'\(\*@ (C\d+(?:_\w+)?(?:,C\d+(?:_\w+)?)*)()\s+(.*?)\*\)\s*(Lemma|Example)\s+(\w+)(.*?)\nProof\.|\(\*@ (C\d+(?:_\w+)?(?:,C\d+(?:_\w+)?)*)()\s+(.*?)\*\)\s*(Lemma|Example)\s+(\w+)(.*?)\n\s+Proof\.',s,re.S):
        g=m.groups()
        if g[0] is None: g=g[6:]
        else: g=g[:6]
        cid,suf,doc,kind,name,stmt=g
        depth=0
        for i,ch in enumerate(stmt):
            if ch in '({[': depth+=1
            if ch in ')}]': depth-=1
            if ch==':' and depth==0: break
        binders,body=stmt[:i].strip(),stmt[i+1:].strip('\n')
        stmt=(' :\n    ∀ '+binders+',' if binders else ' :')+('\n' if not body.startswith('\n') else '')+body
        k='Theorem' if kind=='Lemma' else 'Example'
        for c in cid.split(','):
            c,_,suf=c.partition('_')
            th=f'{c}_{name}'+('_'+suf if suf else '')
            names.append(th)
            out.append(f'  (** {doc.strip()} *)\n  {k} {th}{stmt}\n  Proof. first [exact {name} | apply {name} | intros; eapply {name}; eassumption]. Qed.\n')
    out.append(ftr+'\n')
    for n in names: out.append(f'Print Assumptions {n}.')
    open(os.path.join(d,f'Props{base}.v'),'w').write('\n'.join(out)+'\n')
    print(base,len(names))
