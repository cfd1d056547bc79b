import glob,subprocess,os,sys
fs=sorted(glob.glob('/repo/build/testdata/*.golden'))
os.makedirs('/tmp/gold',exist_ok=True)
out=['From Verif Require Import Base Ast Lex Parse Attach ParseFile Print.','Open Scope string_scope.']
out.append('Definition chk (ft : ftype) (s : bytes) : bool * option bytes := match parse_file (FMeta [] [] [] ft) s with Some f => match FormatWithoutRewriting f with Some t => (beq t s, if beq t s then None else Some t) | None => (false, None) end | None => (false, None) end.')
names=[]
for f in fs:
    b=open(f,'rb').read()
    if len(b)>4000: continue
    try: s=b.decode('ascii')
    except: continue
    ft='TypeBuild' if '.build.' in f else 'TypeBzl' if '.bzl.' in f else 'TypeModule' if '.module.' in f else 'TypeWorkspace' if 'workspace' in f else None
    for t in ([ft] if ft else ['TypeBuild','TypeBzl']):
        names.append((os.path.basename(f),t))
        out.append('Time Eval vm_compute in let r := chk %s (B "%s") in (%d, fst r, match snd r with Some t => Some (string_of_list_ascii t) | None => None end).'%(t,s.replace('"','""'),len(names)-1))
open('/tmp/gold/G.v','w').write('\n'.join(out))
open('/tmp/gold/names','w').write('\n'.join(map(str,names)))
