import subprocess,re,os,json,sys
th=sys.argv[1] if len(sys.argv)>1 else '/verif/rocq/theories'   # a directory with compiled files
order=[l.strip() for l in open('/verif/tools/files.txt') if l.strip()]
out={}
for m in order:
    if not m.startswith('T_'): continue
    src=open(f'{th}/{m}.v').read()
    names=re.findall(r'^Print Assumptions (\w+)\.',src,re.M)
    os.makedirs('/tmp/ax',exist_ok=True)
    open(f'/tmp/ax/{m}.v','w').write(src)
    p=subprocess.run(['coqc','-Q',th,'Verif',f'/tmp/ax/{m}.v'],capture_output=True,text=True)
    if p.returncode: print(m,p.stderr[:300]); continue
    # split output
    blocks=[];cur=None
    for l in p.stdout.splitlines():
        if l.startswith('Closed under'): blocks.append([]);cur=None
        elif l.startswith('Axioms:'): cur=[];blocks.append(cur)
        elif cur is not None:
            g=re.match(r'^([\w.]+) :',l) or re.match(r'^([\w.]+)$',l)
            if g: cur.append(g.group(1))
    if len(blocks)!=len(names): print(m,'MISMATCH',len(blocks),len(names))
    for n,b in zip(names,blocks): out[n]=sorted(b)

short={'ClassicalDedekindReals.sig_forall_dec':'D','ClassicalDedekindReals.sig_not_dec':'N','FunctionalExtensionality.functional_extensionality_dep':'F','Classical_Prop.classic':'C'}
groups={}
for n,b in out.items():
    groups.setdefault(' '.join(short.get(a,a) for a in b) or 'none',[]).append(n)
with open('/verif/AXIOMS.md','w') as f:
    f.write('# What Print Assumptions lists\n\nWritten by tools/axioms.py from the output of the `Print Assumptions` under each theorem. All four are axioms of the standard library:\n\n')
    for k,v in short.items(): f.write(f'- {v}: `{k}`\n')
    for k in sorted(groups,key=lambda k:-len(groups[k])):
        f.write(f'\n## {k} ({len(groups[k])} theorems)\n\n'+', '.join(sorted(groups[k]))+'\n')
