#!/usr/bin/env python3
"""Writes ASSUMPTIONS.md: what Print Assumptions lists for every theorem of the *Props.v files (needs the compiled files)."""
import re,glob,subprocess,os,tempfile,sys
from concurrent.futures import ThreadPoolExecutor
root=os.path.dirname(os.path.dirname(os.path.abspath(__file__))); th=root+'/rocq/theories'
short={'ClassicalDedekindReals.sig_forall_dec':'F','ClassicalDedekindReals.sig_not_dec':'N','FunctionalExtensionality.functional_extensionality_dep':'E','Classical_Prop.classic':'C'}
def run(f):
    mod=os.path.basename(f)[:-2]
    names=re.findall(r'^Theorem\s+(\w+)',open(f).read(),re.M)
    d=tempfile.mkdtemp()
    src='From Verif Require %s.\n'%mod+''.join('Eval compute in tt.\nPrint Assumptions %s.%s.\n'%(mod,n) for n in names)
    open(d+'/a.v','w').write(src)
    out=subprocess.run(['coqc','-Q',th,'Verif','-o',d+'/a.vo',d+'/a.v'],capture_output=True,text=True,cwd=d)
    if out.returncode: print(mod,out.stderr[:500]); 
    parts=out.stdout.split('     = tt\n     : unit\n')[1:]
    assert len(parts)==len(names),(mod,len(parts),len(names))
    rows=[]
    for n,p in zip(names,parts):
        ax=sorted(set(re.findall(r'^([A-Za-z_][\w.]*)\s*(?::|$)',p,re.M))-{'Axioms'}) if 'Closed under' not in p else []
        rows.append((n,ax))
    return mod,rows
fs=sorted(glob.glob(th+'/*Props.v'))
with ThreadPoolExecutor(2) as ex: res=list(ex.map(run,fs))
with open(root+'/ASSUMPTIONS.md','w') as o:
    o.write("# What Print Assumptions lists for each theorem\n\nMade by `tools/assumptions.py`. All are axioms of Coq's standard library:\nF = `ClassicalDedekindReals.sig_forall_dec`, N = `ClassicalDedekindReals.sig_not_dec`, E = `FunctionalExtensionality.functional_extensionality_dep`, C = `Classical_Prop.classic`; `-` = closed under the global context.\n")
    for mod,rows in res:
        o.write("\n## %s.v\n\n"%mod)
        for n,ax in rows: o.write("* `%s`: %s\n"%(n,' '.join(short.get(a,'`'+a+'`') for a in ax) or '-'))
print(sum(len(r) for _,r in res),'theorems; axioms:',sorted({a for _,r in res for _,ax in r for a in ax}))
