import json
T={('port_ltb','protocol order reversed'):['C38_order_is_lexicographic'],
('mime_eqb','equality ignores subtype'):['C54_equality'],
('unpack_in','undef order treated as big'):['C32_undefined_order'],
('find_byte_loop','search skips bytes'):['C10_find_byte'],
('ws','CR not whitespace'):['C28_whitespace'],
('utf8_encode','wrong boundary'):['C62_exact'],('expand_unicode',None):['C62_exact'],
('net_eqb','length ignored'):['C37_network_order'],
('do_close',None):['C67_closed_is_new'],('do_connect',None):['C67_failing_unit_not_connected','C67_connected_unit_gets_data'],
('sstep',None):['C67_closed_is_new','C67_initial_number_rejected'],
('rhss',None):['C49_tables_exact (specification now has its own right-hand sides: GrammarSpec.alternative)'],
('check_one','no look-aheads accepted'):['C50_acceptance_exact'],
('result_offset','no offset'):['C61_offset'],
('disconnect','still forwards after disconnect'):['C48_disconnected_filters_forward_nowhere'],
('sink_close','filter data kept after close'):['C48_sink_reused_after_close'],
('is_wildcard',None):['C54_wildcard'],('hton',None):['C33_network_order'],
('resolve','cached chunk freed'):[],
}
def tight(x):
    for k in ((x['def'],x['edit']),(x['def'],None)):
        if k in T: return T[k]
    if x['def']=='expand_loop' and 'expect' in x and x['expect']: return ['C62_exact']
    return []
out=[]
def add(batch,x):
    failed=x['failed']+[t+' (no longer compiles)' for t in x['unbuilt']]
    r={'batch':batch,'definition':x['file']+': '+x['def'],'edit':x['edit'],'code':[x['old'][:160],x['new'][:160]],'claim':x['claim'],'failed':failed}
    if x.get('stmt'): r['statement_changed']=x['stmt']
    if not failed:
        t=tight(x)
        r['tightened']=t
        if t: r['note']='missed at first; the theorem named was added or strengthened'
        elif not x['expect'] or 'equivalent' in x['claim'] or 'not observable' in x['claim']: r['note']='no claim becomes false: the edit is equivalent or not observable'
        else: r['note']=x.get('note','')
    else:
        t=tight(x) if x['def'] in('do_close','do_connect','sstep','rhss') else []
        r['tightened']=t
    out.append(r)
for b,f in enumerate(['m1a','m1b','m2','m3','m4'],1):
    ls=[json.loads(l) for l in open(f'/tmp/mut/{f}.out')]
    if f=='m1a': ls=ls[:35]
    for x in ls:
        if x['def']=='resolve' and 'freed' in x['edit']: x['note']='the edit only changes iterators that C05 and C07 exclude by hypothesis (used after their chunk was trimmed): no claim becomes false'
        add(b,x)
import glob,os
for b,f in enumerate(['m5','m6','m7','m8','m9'],6):
    if os.path.exists(f'/tmp/mut/{f}.out'):
        for l in open(f'/tmp/mut/{f}.out'): add(b,json.loads(l))
open('/verif/seeded/LOG.jsonl','w').write(''.join(json.dumps(r)+'\n' for r in out))
print(len(out), sum(1 for r in out if not r['failed']), sum(1 for r in out if r['tightened']))
for r in out:
    if not r['failed']: print(r['definition'],r['edit'],r['tightened'],r.get('note'))
