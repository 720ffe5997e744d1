#!/usr/bin/env python3
"""Copy the two serialised ATNs of the generated modules, word by word, to AtnData.v."""
import re, textwrap
R = '/repo/src/fcsql/'
def words(f):
    src = open(R + f).read()
    i = src.index('def serializedATN():')
    a = src.index('[', i); b = src.index(']', a)
    l1 = src.count('\n', 0, i) + 1; l2 = src.count('\n', 0, b) + 1
    return [int(x) for x in re.split(r'[,\s]+', src[a+1:b].strip())], l1, l2
out = ['(** The serialised ATNs of the generated modules, copied by tools/gen_atn.py. *)',
       'From Coq Require Import ZArith List.', 'Import ListNotations.', 'Local Open Scope Z_scope.']
for name, f in (('lexer_words', 'FCSLexer.py'), ('parser_words', 'FCSParser.py')):
    w, l1, l2 = words(f)
    out.append(f'(** {f}:{l1}-{l2}, [serializedATN()]: {len(w)} numbers *)')
    out.append(f'Definition {name} : list Z :=')
    body = '; '.join(str(x) for x in w)
    out.append('  [' + '\n   '.join(textwrap.wrap(body, 110)) + '].')
open('/verif/rocq/theories/AtnData.v', 'w').write('\n'.join(out) + '\n')
