#!/usr/bin/env python3
"""Collects the results of tools/mutate.py (/tmp/mut/<id>.json) into seeded/LOG.jsonl (one line per mutant)."""
import json, glob, os
TIGHT = {
 'm230': ['C66_message (first run: the text of the raised message was not stated; the theorem was added and the rerun fails it)'],
 'm236': ['C09_numbers (first run: the limit on the digits of integers was covered only in the model; the theorem was added and the rerun fails it)'],
 'm168': ['C48_lexical, C48_lexical_only (first run: stated through the model error_display)'],
 'm146': ['C53_location (first run: parse sets the location before the parent, so C25 rightly survived; assigning node.location was not covered)'],
 'm148': ['C32_flags (first run: C32_predicates spoke of membership through the model flag_in)'],
 'm150': ['C12_module (first run: the defaults of fcsql.parse were not stated)'],
 'm151': ['C12_module (first run: the defaults of fcsql.parse were not stated)'],
 'm130': ['C53_blank (first run: C53_expression spoke of blanks through the model is_space_char and survived; the characters are now listed)'],
 'm135': ['C34_total (first run: C34 was stated for a given node type only and survived)'],
 'm076': ['C42_table', 'C42_errors', 'C44_pos (first run: C42/C44 were stated on the findings table only and survived; restated on what validator_validate records)'],
}
NOTE = {
 'm206': 'equivalent: all token types are below 64',
 'm217': 'equivalent for parse: no reachable code asks for a child with a negative index',
 'm218': 'equivalent: the rule never has two tokens of that kind',
 'm231': 'first run listed the wrong properties for this edit; C42 and C44 speak of it and fail',
 'm232': 'equivalent: the lexer guarantees it',
 'm234': 'equivalent: the lexer guarantees it',
 'm264': 'equivalent: the follow set of the outermost rule is only asked at its end',
 'm265': 'no claim broken: only the first report is claimed to be made; 18 theorems about the recovery fail all the same',
 'm284': 'equivalent: a SimpleWithin has no children, so generic_visit does nothing either',
 'm309': 'no claimed effect, kept as a control',
 'm013': 'C09 quantifies over the repetitions of accepted queries, so it survives a rejection; acceptance is C02, which fails',
 'm020': 'equivalent on this grammar as far as results go: the selection lemma fails, no claim is broken',
 'm152': 'equivalent: after the first integer of {m,n} there are always two more children, and where there are not no second integer exists',
 'm127': 'equivalent for parse: slice bounds are never negative there',
 'm129': 'equivalent for parse: emptiness is tested before isspace is called; the exact statement of isspace is now C53_blank',
 'm162': 'equivalent mutant, kept as a control',
 'm048': 'C01 speaks of documented exceptions only and survives; C02 and C17 fail',
}
out = os.path.join(os.path.dirname(__file__), '..', 'seeded', 'LOG.jsonl')
old = {}
if os.path.exists(out):
    for l in open(out):
        if l.strip():
            r = json.loads(l); old[r['id']] = r
for f in sorted(glob.glob('/tmp/mut/m*.json')):
    r = json.load(open(f))
    if r.get('error'): print('error', r['id'], r['error'][:100]); continue
    e = {'id': r['id'], 'definition': r['definition'],
         'edit': [{'file': x[0], 'old': x[1], 'new': x[2]} for x in r['edits']],
         'claim_broken': r['claim'], 'properties': r['props'],
         'proofs_failed': r['failed_proofs'], 'theorems_failed': r['theorems_failed'],
         'theorems_tightened': TIGHT.get(r['id'], [])}
    if r.get('broken_files'): e['no_longer_compile'] = r['broken_files']
    if r['id'] in NOTE: e['note'] = NOTE[r['id']]
    old[r['id']] = e
with open(out, 'w') as g:
    for k in sorted(old): g.write(json.dumps(old[k], ensure_ascii=False) + '\n')
print(len(old))
