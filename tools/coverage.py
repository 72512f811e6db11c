#!/usr/bin/env python3
"""Writes COVERAGE.md: the header of every model file (scope, contracts of other libraries, simplifications), the source files cited by the models,
the source files cited by none, and the refuted claims."""
import re,glob,os,json
root=os.path.dirname(os.path.dirname(os.path.abspath(__file__))); th=root+'/rocq/theories'; src='/repo/src/frydom'
files=sorted(os.path.relpath(f,src) for e in ('h','cpp','inl') for f in glob.glob(src+'/**/*.'+e,recursive=True))
base={}
for f in files: base.setdefault(os.path.basename(f),[]).append(f)
cited={}
out=["# What is modelled\n","Made by `tools/coverage.py` from the comments of the model files. The definitions cite lines; this is the list of files.\n"]
for p in sorted(glob.glob(th+'/*Model*.v')):
    t=open(p).read(); m=os.path.basename(p)
    coms=' '.join(' '.join(re.findall(r'\(\*.*?\*\)',t,re.S)).split())
    got=set()
    for name,exts in re.findall(r'\b((?:Fr\w+|Torsor))\.(\{[\w,]+\}|cpp|h|inl)',coms):
        for e in exts.strip('{}').split(','): got.update(base.get(name+'.'+e.strip(),[]))
    for name in re.findall(r'\bFr\w+',coms):
        for e in ('cpp','h','inl'):
            if re.search(name+r'(\.\w+)?,? *\(?\d|'+name+r' ?(,|\(|and|\.|;|:)',coms): got.update(base.get(name+'.'+e,[]))
    # a cited header-only or source file counts with its twin: the declarations are read together
    for g in got: cited.setdefault(g,set()).add(m)
    head=re.search(r'\(\*\*?(.*?)\*\)',t,re.S).group(1); head=' '.join(head.split())
    out.append('## %s\n\n%s\n\nFiles cited or named: %s\n'%(m,head,', '.join('`%s`'%g for g in sorted(got)) or 'see above'))
stem=lambda f: os.path.splitext(f)[0]
cs={stem(f) for f in cited}
rest=[f for f in files if stem(f) not in cs and f.endswith('.cpp')]
heads=[f for f in files if stem(f) not in cs and not f.endswith('.cpp') and stem(f)+'.cpp' not in files]
out.append('# Source files cited by no model\n\nImplementation files:\n\n'+'\n'.join('* `%s`'%f for f in rest)+'\n\nHeaders without an implementation file (forward declarations, umbrella headers and the like):\n\n'+', '.join('`%s`'%f for f in heads)+'\n')
titles={}
for l in open(root+'/properties.jsonl'):
    d=json.loads(l); titles[d['id']]=d
out.append('# Claims refuted of the code\n\nEach theorem is the negation of the claim, proved on the model by a concrete case or for all cases.\n')
for c in json.load(open(root+'/MANIFEST.json'))['claims']:
    r=[t for t in c['theorems'] if t.endswith('_refuted')]
    if r: out.append('* %s (%s): %s'%(c['property'],titles[c['property']]['title'],', '.join('`%s`'%x for x in r)))
open(root+'/COVERAGE.md','w').write('\n'.join(out)+'\n')
print(len(cited),'cited;',len(rest),'cpp uncited;',len(heads),'headers uncited')
print(rest)
