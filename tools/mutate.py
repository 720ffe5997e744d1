#!/usr/bin/env python3
"""Seeded-bug runs.  For every mutant (seeded/mutants.py): copy rocq/ to a scratch
directory, edit the model, recompile everything that depends on the edit.  Where a proof
no longer goes through it is cut at the failing sentence and admitted (in the scratch copy
only), so that the build goes on; in the end Print Assumptions tells exactly which theorems
of MANIFEST.json rest on an admitted proof, i.e. no longer prove.
usage: mutate.py [-j N] [ids...]      results: /tmp/mut/<id>.json"""
import sys, os, re, json, subprocess, shutil, concurrent.futures as cf
sys.path.insert(0, '/verif/seeded')
SRC, OUT = os.environ.get('MUT_SRC', '/tmp/mut_src/rocq'), '/tmp/mut'   # SRC: snapshot of /verif/rocq taken at the start
FILE_TIMEOUT = 400
BUILD_TIMEOUT = 3000

def order(d):
    vs = [l.strip() for l in open(d + '/_CoqProject') if l.strip().endswith('.v')]
    out = subprocess.run(['coqdep', '-Q', 'theories', 'Verif'] + vs, cwd=d, capture_output=True, text=True).stdout
    deps = {}
    for l in out.splitlines():
        if ':' not in l: continue
        lhs, rhs = l.split(':', 1)
        t = [x for x in lhs.split() if x.endswith('.vo')]
        if not t: continue
        deps[t[0][:-1]] = [x[:-1] for x in rhs.split() if x.endswith('.vo') and x.startswith('theories')]
    done, res = set(), []
    def go(v):
        if v in done: return
        done.add(v)
        for x in deps.get(v, []): go(x)
        res.append(v)
    for v in vs: go(v)
    return res, deps

HEAD = re.compile(rb'(?:^|\n)[ \t]*(?:Local |Global |#\[[^\]]*\] )?(Lemma|Theorem|Corollary|Example|Fact|Remark|Fixpoint|Definition|Instance|Program)\s+([A-Za-z_][\w\']*)')
END = re.compile(rb'\b(Qed|Defined|Admitted)\.')

def compile_file(d, v, log):
    """returns list of admitted names, or raises"""
    path = d + '/' + v
    fails = []
    for attempt in range(80):
        try:
            p = subprocess.run(['coqc', '-time', '-Q', 'theories', 'Verif', v], cwd=d, capture_output=True, timeout=FILE_TIMEOUT)
            out, rc = p.stdout, p.returncode
            err = p.stderr
        except subprocess.TimeoutExpired as e:
            out, rc, err = e.stdout or b'', 124, b'timeout'
        if rc == 0: return fails
        pos = 0
        for m in re.finditer(rb'Chars (\d+) - (\d+)', out): pos = int(m.group(2 if rc == 124 else 1))
        src = open(path, 'rb').read()
        heads = [m for m in HEAD.finditer(src) if m.start() <= pos + 1]
        # the failing sentence starts at pos; inside a proof?
        h = None
        for m in reversed(heads):
            h = m; break
        e = END.search(src, pos)
        inproof = False
        if h is not None:
            between = src[h.end():pos]
            if re.search(rb'\bProof\b', between) and not END.search(between): inproof = True
        if not inproof or e is None:
            nh = HEAD.search(src, pos)
            raise RuntimeError('%s: statement/definition near %s no longer typechecks: %s' % (v, (nh.group(2).decode() if nh else '?'), err.decode(errors='replace')[-300:]))
        name = h.group(2).decode()
        fails.append(name)
        log.append((v, name))
        src = src[:pos] + b' Admitted.' + src[e.end():]
        open(path, 'wb').write(src)
    raise RuntimeError(v + ': too many failures')

def run(mut):
    d = '%s/%s' % (OUT, mut['id'])
    shutil.rmtree(d, ignore_errors=True)
    shutil.copytree(SRC, d)
    res = dict(mut)
    changed = set()
    for ed in mut['edits']:
        f = 'theories/' + ed[0]
        s = open(d + '/' + f).read()
        if s.count(ed[1]) < 1:
            res['error'] = 'edit not applicable: %r occurs %d times in %s' % (ed[1], s.count(ed[1]), f); json.dump(res, open(d + '.json', 'w')); return res
        s = s.replace(ed[1], ed[2], 1) if len(ed) < 4 else s.replace(ed[1], ed[2])
        open(d + '/' + f, 'w').write(s); changed.add(f)
    files, deps = order(d)
    log = []; broken = []
    rebuilt = set()
    for v in files:
        if v in changed or any(x in rebuilt for x in deps[v]):
            rebuilt.add(v)
            if any(x in broken for x in deps[v]):
                broken.append(v); continue
            try: compile_file(d, v, log)
            except RuntimeError as e:
                broken.append(v); res.setdefault('stuck', []).append(str(e))
                try: os.remove(d + '/' + v + 'o')
                except OSError: pass
    thms = [t for c in json.load(open(os.path.dirname(SRC) + '/MANIFEST.json'))['claims'] for t in c['theorems']]
    where = {}
    for v in files:
        for m in re.finditer(r'^(?:Theorem|Corollary) (C\d\d_\w+)', open(SRC + '/' + v).read(), re.M): where[m.group(1)] = v
    affected = []
    props = sorted({where[t] for t in thms if where[t] not in broken})
    ck = 'From Verif Require ' + ' '.join(p[9:-2] for p in props) + '.\n'
    for t in thms:
        if where[t] in broken: affected.append(t)
        else: ck += 'Eval compute in "@@%s"%%string.\nPrint Assumptions %s.%s.\n' % (t, where[t][9:-2], t)
    ck = 'From Coq Require Import String.\n' + ck
    open(d + '/ck.v', 'w').write(ck)
    p = subprocess.run(['coqc', '-Q', 'theories', 'Verif', 'ck.v'], cwd=d, capture_output=True, text=True)
    if p.returncode != 0: res['ck_error'] = p.stderr[-500:]
    admitted = {n for _, n in log}
    for blk in p.stdout.split('@@')[1:]:
        t = blk.split('"')[0]
        if any(re.search(r'(^|[\s.])%s\b' % re.escape(a), blk) for a in admitted): affected.append(t)
    res['failed_proofs'] = ['%s.%s' % (v[9:-2], n) for v, n in log]
    res['broken_files'] = [b[9:-2] for b in broken]
    res['theorems_failed'] = affected
    json.dump(res, open(d + '.json', 'w'), indent=1)
    shutil.rmtree(d, ignore_errors=True)
    print(mut['id'], 'claim', mut['claim'], '| failed proofs', res['failed_proofs'][:6], '| stuck', len(res.get('stuck', [])), '| theorems', len(affected),
          'HIT' if any(t.startswith(tuple(mut['props'])) for t in affected) else '*** MISSED ***', flush=True)
    return res

def safe(m):
    try: return run(m)
    except Exception as e: print(m['id'], 'CRASH', repr(e), flush=True)

if __name__ == '__main__':
    from mutants import MUTANTS
    args = sys.argv[1:]; j = 4
    if args[:1] == ['-j']: j = int(args[1]); args = args[2:]
    os.makedirs(OUT, exist_ok=True)
    base = os.path.dirname(SRC)
    shutil.rmtree(base, ignore_errors=True); os.makedirs(base)
    shutil.copytree('/verif/rocq', SRC); shutil.copy('/verif/MANIFEST.json', base)
    ms = [m for m in MUTANTS if not args or m['id'] in args]
    with cf.ThreadPoolExecutor(j) as ex: list(ex.map(safe, ms))
