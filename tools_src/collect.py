import json,glob,re
remap={}
def rm(ids,c):
    for i in ids.split(): remap[i]=c
rm('F1 F2','C05'); rm('F3 F4 F5 F6 F7 F10','C06'); rm('F8 F9','C07'); rm('E12','C03');rm('T4','C20');rm('P3','C33')
rm('G8','C14');rm('G14','C18');rm('G15','C14');rm('T7','C21');rm('T8 T9','C25');rm('T11 T28','C23');rm('T12 T14','C24');rm('T17','C26');rm('T25','C21')
rm('Q5 Q6 Q10','C48');rm('Q7 Q8 Q9','C55');rm('Q12','C47');rm('Q14 Q20','C45');rm('Q16 Q17 Q18 Q19','C49');rm('Q21 Q22','C53');rm('Q25','C52');rm('Q26','C51')
rm('K4','C57');rm('K6 K7 K8 K9','C56');rm('K10','C58');rm('K11','C59');rm('K18 K19','C60');rm('H9 H10 H11 H12','C43');rm('H13 H14 H15','C42')
rm('L1 L2 L3','C71');rm('L4 L5 L6','C68');rm('L10 L11 L16','C70');rm('X1 X2','C73');rm('X10 X11 X12 X13','C75');rm('X18','C76');rm('B2 B3 B19 B20','C88')
try: extra=json.load(open('/tmp/mut/extra.json'))
except Exception: extra={}
defs={}
for f in ['m1','m2','m3','m4','m5','m6','m7','m8','m9']:
    try:
        for m in json.load(open(f'/tmp/mut/{f}.json')): defs[m['id']]=m
    except FileNotFoundError: pass
res={}
for f in sorted(glob.glob('/tmp/mut/m*.out')):
    for l in open(f):
        try: r=json.loads(l)
        except Exception: continue
        if 'id' in r: res[r['id']]=r
if 'F1' not in res or True:
    res.setdefault('F1',{'id':'F1','failed':"C04_no_uninitialised_reads C04_kmax0 C04_kmax0_refuted C05_slack_iff C06_first_admissible_selected C07_meaning_of_flags C08_results_in_range C80_irfs_total C24_equilibrium_is_held C26_total C31_k_map_search C75_total".split(),'lemmas':[]})
def key(i): return ('FEGSTPAYHQKOBLXZ'.find(i[0]) if i[0] in 'FEGSTPAYHQKOBLXZ' else 99,i[0],int(re.sub(r'\D','',i)))
out=[];surv=[]
for i in sorted(res,key=key):
    r=res[i]; m=defs[i]
    if 'error' in r: surv.append((i,'ERROR',r['error'],r.get('out','')[:200])); continue
    x=extra.get(i,{})
    failed=[t for t in r['failed'] if re.match(r'C\d',t) and not re.search(r'_ex(\d*$|amples?|\d*_)(?!t)', t) and not t.endswith('_met')]
    exs=[t for t in r['failed'] if t not in failed]
    lem=[l.split(' ')[0] for l in r.get('lemmas',[]) if 'SKIP' not in l]
    claim=x.get('claim') or remap.get(i,m['claim'])
    ids=sorted({t.split('_')[0] for t in failed})
    cl=re.findall(r'C\d+',claim)
    cas=any('COMPILE' in l for l in r.get('lemmas',[]))
    hit=bool(set(cl)&set(ids))
    if not hit and not x.get('verdict'): surv.append((i,claim,failed[:8],exs[:5],lem[:8],'CASCADE' if cas else '', m['edit']))
    o={'definition':m['file'][:-2]+'.'+str(m.get('def')),'edit':m['edit'],'from':m['old'],'to':m['new'],'claim':claim,'theorems_failed':failed,'theorems_tightened':x.get('tightened',[])}
    if cas and not failed: o['note']='lemmas '+', '.join(lem[:5])+' failed, and with them every theorem that depends on them'
    if x.get('verdict'): o['note']=x['verdict']
    out.append(o)
open('/tmp/mut/LOG.jsonl','w').write(''.join(json.dumps(o)+'\n' for o in out))
print(len(out)); [print(s) for s in surv]
