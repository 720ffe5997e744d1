#!/usr/bin/env python3
"""Copy the context classes, constants and name tables of the generated modules to ContextData.v."""
import re, ast
R = '/repo/src/fcsql/'
src = open(R + 'FCSParser.py').read(); lines = src.split('\n')
tree = ast.parse(src.replace('\t', '        '))
parser = next(n for n in tree.body if isinstance(n, ast.ClassDef) and n.name == 'FCSParser')
def q(s): return '"' + s.replace('"', '""') + '"'
def consts(cls):
    d = {}
    for n in cls.body:
        if isinstance(n, ast.Assign) and isinstance(n.targets[0], ast.Name):
            d[n.targets[0].id] = (n.value, n.lineno, n.end_lineno)
    return d
pc = consts(parser)
rules = [e.value for e in pc['ruleNames'][0].elts]      # in order; the constructor names of Grammar.rule
types = [k for k in pc if isinstance(pc[k][0], ast.Constant) and isinstance(pc[k][0].value, int) and not k.startswith('RULE_')]
ctx_rule = {}                                           # context class -> rule, via getRuleIndex
classes = [n for n in parser.body if isinstance(n, ast.ClassDef)]
def ret(f): return next(s for s in ast.walk(f) if isinstance(s, ast.Return)).value
for c in classes:
    f = next(n for n in c.body if isinstance(n, ast.FunctionDef) and n.name == 'getRuleIndex')
    ctx_rule[c.name] = ret(f).attr[len('RULE_'):]
def kind(call):
    a = call.args[0].attr
    return {'getTypedRuleContext': lambda: 'KRule ' + ctx_rule[a], 'getTypedRuleContexts': lambda: 'KRule ' + ctx_rule[a],
            'getToken': lambda: 'KTok ' + a, 'getTokens': lambda: 'KTok ' + a}[call.func.attr]()
acc, disp = {}, {}
for c in classes:
    r = ctx_rule[c.name]; acc[r] = []; d = {}
    for f in c.body:
        if not isinstance(f, ast.FunctionDef) or f.name in ('__init__', 'getRuleIndex'): continue
        if f.name in ('enterRule', 'exitRule', 'accept'):
            t = f.body[0].test                             # if hasattr(x, "name"): x.name(self)
            b = f.body[0].body[0]; call = b.value
            assert t.func.id == 'hasattr' and call.func.attr == t.args[1].value and call.args[0].id == 'self'
            d[f.name] = (t.args[1].value, f.lineno, f.end_lineno)
            if f.name == 'accept': assert ast.unparse(f.body[0].orelse[0].value) == 'visitor.visitChildren(self)'
            else: assert not f.body[0].orelse
        else:
            if len(f.args.args) == 1:
                call = ret(f); assert call.args[1].value == 0 and len(f.body) == 1
                acc[r].append((f.name, kind(call), 'false', f.lineno, f.end_lineno))
            else:
                i = f.body[0]; assert ast.unparse(i.test) == 'i is None'
                c1, c2 = i.body[0].value, i.orelse[0].value
                assert kind(c1) == kind(c2) and c1.func.attr == c2.func.attr + 's' and c2.args[1].id == 'i' and len(c1.args) == 1
                acc[r].append((f.name, kind(c1), 'true', f.lineno, f.end_lineno))
    disp[r] = d
def methods(fn, cname):
    s = open(R + fn).read(); t = ast.parse(s)
    c = next(n for n in t.body if isinstance(n, ast.ClassDef) and n.name == cname)
    return [f for f in c.body if isinstance(f, ast.FunctionDef)], c
o = ['(** The context classes, constants and name tables of the generated modules FCSParser.py, FCSParserListener.py,',
     '    FCSParserVisitor.py and FCSLexer.py, copied by tools/gen_contexts.py (python ast of these files). *)',
     'From Coq Require Import String ZArith List.', 'From Verif Require Import Base LexRules Grammar.', 'Import ListNotations.', '',
     '(** What an accessor of a context class looks for: a child context of a rule, or a terminal of a type. *)',
     'Inductive kind := KRule (r : rule) | KTok (t : ttype).',
     '(** An accessor: name, kind, and whether it takes an optional index (then it returns a list without one). *)',
     'Record accessor := mkAcc { a_name : pystr; a_kind : kind; a_indexed : bool }.', '']
o.append(f'(** The accessors of the context class of each rule, FCSParser.py:{classes[0].lineno}-{classes[-1].end_lineno} *)')
o.append('Definition accessors (r : rule) : list accessor :=\n  match r with')
for r in rules:
    o.append(f'  | {r} =>')
    o.append('      [' + ';\n       '.join(f'mkAcc (u {q(n)}) ({k}) {i} (* {a}-{b} *)' for n, k, i, a, b in acc[r]) + ']')
o.append('  end.')
for nm, m, doc in (('enter_name', 'enterRule', 'the method [enterRule(listener)] calls if the listener has it'),
                   ('exit_name', 'exitRule', 'the method [exitRule(listener)] calls if the listener has it'),
                   ('visit_name', 'accept', 'the method [accept(visitor)] calls if the visitor has it (otherwise [visitChildren])')):
    o.append(f'(** Per context class: {doc}. *)')
    o.append(f'Definition {nm} (r : rule) : pystr :=\n  match r with')
    for r in rules: n, a, b = disp[r][m]; o.append(f'  | {r} => u {q(n)} (* FCSParser.py:{a}-{b} *)')
    o.append('  end.')
o.append(f"(** [getRuleIndex] of each context class with the constants FCSParser.py:{pc['RULE_query'][1]}-{pc['RULE_regexp_flag'][2]} *)")
o.append('Definition rule_index (r : rule) : nat :=\n  match r with\n  ' + ' '.join(f"| {r} => {pc['RULE_' + r][0].value}" for r in rules) + '\n  end.')
o.append(f"(** The token type constants, FCSParser.py:{pc['EOF'][1]}-{pc[types[-1]][2]} ([EOF] is [Token.EOF] = -1) *)")
o.append('Definition type_number (t : ttype) : Z :=\n  match t with\n  | EOF => (-1) ' + ' '.join(f"| {t} => {pc[t][0].value}" for t in types) + '\n  end%Z.')
lx = open(R + 'FCSLexer.py').read(); lt = ast.parse(lx.replace('\t', '        '))
lexer = next(n for n in lt.body if isinstance(n, ast.ClassDef)); lc = consts(lexer)
o.append(f"(** The token type constants of the lexer, FCSLexer.py:{lc[types[0]][1]}-{lc[types[-1]][2]} *)")
o.append('Definition lexer_type_number (t : ttype) : Z :=\n  match t with\n  | EOF => (-1) ' + ' '.join(f"| {t} => {lc[t][0].value}" for t in types) + '\n  end%Z.')
def table(name, d, key, fn):
    v, a, b = d[key]
    o.append(f'(** [{key}], {fn}:{a}-{b} *)')
    o.append(f'Definition {name} : list pystr :=\n  map u [' + '; '.join(q(e.value) for e in v.elts) + ']%string.')
table('rule_names', pc, 'ruleNames', 'FCSParser.py'); table('literal_names', pc, 'literalNames', 'FCSParser.py'); table('symbolic_names', pc, 'symbolicNames', 'FCSParser.py')
table('lexer_literal_names', lc, 'literalNames', 'FCSLexer.py'); table('lexer_symbolic_names', lc, 'symbolicNames', 'FCSLexer.py')
fs, c = methods('FCSParserListener.py', 'FCSParserListener')
assert all(isinstance(f.body[0], ast.Pass) for f in fs)
o.append(f'(** The methods of [FCSParserListener] (all do nothing), FCSParserListener.py:{c.lineno}-{c.end_lineno} *)')
o.append('Definition listener_methods : list pystr :=\n  map u [' + '; '.join(q(f.name) for f in fs) + ']%string.')
fs, c = methods('FCSParserVisitor.py', 'FCSParserVisitor')
assert all(ast.unparse(f.body[0]) == 'return self.visitChildren(ctx)' for f in fs)
o.append(f'(** The methods of [FCSParserVisitor] (all [return self.visitChildren(ctx)]), FCSParserVisitor.py:{c.lineno}-{c.end_lineno} *)')
o.append('Definition visitor_methods : list pystr :=\n  map u [' + '; '.join(q(f.name) for f in fs) + ']%string.')
ps = ast.parse(open(R + 'parser.py').read())
b = next(n for n in ps.body if isinstance(n, ast.ClassDef) and n.name == 'ExpressionTreeBuilder')
fs = [f for f in b.body if isinstance(f, ast.FunctionDef) and f.name.startswith('visit')]
o.append(f'(** The methods [ExpressionTreeBuilder] overrides, parser.py:{b.lineno}-{b.end_lineno} *)')
o.append('Definition builder_methods : list pystr :=\n  map u [' + '; '.join(q(f.name) for f in fs) + ']%string.')
open('/verif/rocq/theories/ContextData.v', 'w').write('\n'.join(o) + '\n')
