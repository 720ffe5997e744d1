#!/usr/bin/env python3
"""MANIFEST.json from the theorem names in rocq/theories/Props*.v (Theorem/Example Cnn_...)."""
import glob, json, re, collections, sys
thms = collections.defaultdict(list)
for f in sorted(glob.glob('/verif/rocq/theories/Props*.v')):
    for m in re.finditer(r'^(Theorem|Corollary) (C\d\d)(_\w+)', open(f).read(), re.M):
        thms[m.group(2)].append(m.group(2) + m.group(3))
notes = {
 'C08': "The naive contract (every listed escape usable) is false; C08_refuted refutes it, C08_exact gives the exact condition.",
 'C18': "The documented precedence is false of the code; refuted by concrete queries, with the part that always holds proved.",
 'C28': "Documented contract refuted at idx = child_count; exact behaviour proved.",
 'C30': "Documented contract refuted; exact behaviour proved.",
 'C31': "get_within on a QueryWithWithin built without within raises IndexError; trees from parse always have it.",
 'C33': "The predicates are inverted in the code; exact behaviour and refutation proved.",
 'C34': "QueryGroup carries QUERY_SEGMENT; exact behaviour and refutation proved.",
 'C36': "Six adapter methods are unreachable; exact dispatch and refutation proved.",
 'C41': "Contract refuted for expressions below operators; the exact parent_node proved.",
 'C48': "Lexical errors report a column on their line, not an offset; exact positions and refutation proved. What ANTLR's error recovery reports is a parameter constrained only by env_ok, which C64 discharges.",
 'C49': "antlr_parse ignores lexical errors; exact condition and refutation proved.",
 'C52': "FCSParser.py is modelled method by method; adaptivePredict is a parameter constrained to return the least alternative from which the (deserialised) network reads the rest of the input, where there is one; sync a parameter constrained to accept tokens that can come next.",
 'C50': "Injective on trees whose regexes are free of double quotes and backslashes; counterexamples otherwise.",
}
ids = [json.loads(l)['id'] for l in open('/verif/properties.jsonl')]
claims = []
for i in ids:
    t = thms.get(i, [])
    if not t: status = 'partial'
    elif all(x.endswith('_partial') for x in t): status = 'partial'
    else: status = 'proved'
    claims.append({'property': i, 'status': status, 'theorems': t, 'note': notes.get(i, '') if t else 'Proof in progress; no theorem yet.'})
json.dump({'claims': claims}, open('/verif/MANIFEST.json', 'w'), indent=1)
print({s: sum(c['status'] == s for c in claims) for s in ('proved', 'partial')})
