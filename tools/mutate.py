#!/usr/bin/env python3
"""Mutation testing of the theorems, in a scratch copy.

usage: mutate.py BASE SPEC.py [NAME...]

BASE is a built copy of /verif/rocq outside /verif, made with
  make COQEXTRAFLAGS='-set "Suggest Proof Using=yes"' > BASE.log
(the log tells which section variables each proof uses).  SPEC.py defines MUTANTS, a list of dicts
  name, file, edit, claim, breaks, edits = [(file, old, new[, count])...], helper = [(file, old, new[, count])...]
[edits] change the model as a bug would; [helper] repairs statements of auxiliary lemmas so that they describe
the changed program and the proofs of properties get a chance to go through.  Every proof that fails is replaced
by Admitted in the scratch copy; a property theorem survives if its proof goes through and Print Assumptions
lists no admitted lemma.  Prints one JSON line per mutant."""
import sys, os, re, json, subprocess, shutil, concurrent.futures as cf
base, spec = sys.argv[1:3]
only = sys.argv[3:]
ns = {}
exec(open(spec).read(), ns)
log = open(base.rstrip('/') + '.log').read()
using = {}
for m in re.finditer(r'The proof of (\S+) should start with one of the following commands:\nProof using ([^\n]*)\.', log):
    using.setdefault(m.group(1), set()).add(m.group(2).strip())
files = [l.strip() for l in open(base + '/_CoqProject') if l.strip().endswith('.v')]
names = [os.path.basename(f)[:-2] for f in files]
# PROPS=PropsA,PropsB restricts the build to these property files and what they need
wanted = os.environ.get('PROPS', '').split(',') if os.environ.get('PROPS') else None

def deps(d):
    out = subprocess.run(['coqdep', '-Q', 'theories', 'Verif'] + files, cwd=d, capture_output=True, text=True).stdout
    r = {}
    for l in out.splitlines():
        m = re.match(r'theories/(\w+)\.vo\b.*?: (.*)', l)
        if m:
            r[m.group(1)] = [x for x in re.findall(r'theories/(\w+)\.vo\b', m.group(2)) if x != m.group(1)]
    return r

LEM = re.compile(r'^[ \t]*(?:Local |Global )?(?:Lemma|Theorem|Corollary|Example|Remark|Fact)\s+([\w\']+)', re.M)

def compile_one(d, n, limit):
    """compile, admitting failing proofs; returns (ok, admitted, stdout)"""
    path = d + '/theories/' + n + '.v'
    admitted = []
    while True:
        try:
            p = subprocess.run(['coqc', '-time', '-q', '-Q', 'theories', 'Verif', 'theories/' + n + '.v'], cwd=d,
                               capture_output=True, text=True, timeout=limit)
            if p.returncode == 0:
                return True, admitted, p.stdout
            err = p.stderr
            out = p.stdout
            m = [x for x in re.finditer(r'File "[^"]*", line (\d+), characters (\d+)-(\d+):\n(?:Error|.*\n?Error)', err)]
            m = m or list(re.finditer(r'File "[^"]*", line (\d+), characters (\d+)-(\d+):', err))
            if not m:
                return False, admitted, err[-300:]
            src = open(path, 'rb').read()
            lines = src.split(b'\n')
            ln, ch = int(m[-1].group(1)), int(m[-1].group(2))
            off = sum(len(x) + 1 for x in lines[:ln - 1]) + ch
        except subprocess.TimeoutExpired as e:
            out = (e.stdout or b'').decode()
            c = re.findall(r'^Chars (\d+) - (\d+)', out, re.M)
            off = int(c[-1][1]) + 1 if c else 0
            src = open(path, 'rb').read()
            err = 'timeout'
        s = src.decode()
        off = len(src[:off].decode(errors='ignore'))
        ls = [x for x in LEM.finditer(s) if x.start() <= off]
        if not ls:
            return False, admitted, err[-300:]
        l = ls[-1]
        pr = re.compile(r'\bProof\b[^.]*\.').search(s, l.end())
        q = re.compile(r'\b(Qed|Defined)\.').search(s, pr.end()) if pr else None
        if not q or off < pr.start() or off > q.end():
            return False, admitted, err[-300:]
        u = using.get(l.group(1), {''})
        u = sorted(u, key=len)[-1]
        s = s[:pr.start()] + 'Proof using ' + u + '. Admitted.' + s[q.end():]
        if not in_section(s, l.start()):
            s = s.replace('Proof using ' + u + '. Admitted.', 'Proof. Admitted.')
        open(path, 'w').write(s)
        admitted.append(l.group(1))

def in_section(s, pos):
    return len(re.findall(r'^\s*Section ', s[:pos], re.M)) > len(
        [e for e in re.findall(r'^\s*End (\w+)', s[:pos], re.M)])

def theorems(d, n, out):
    """name -> assumptions of the Print Assumptions commands, in order"""
    src = open(d + '/theories/' + n + '.v').read()
    nm = re.findall(r'^Print Assumptions (\w+)', src, re.M)
    blocks = re.findall(r'^(Closed under the global context|Axioms:\n(?:(?!Chars |Axioms:|Closed ).*\n?)*)', out, re.M)
    return dict(zip(nm, blocks)) if len(nm) == len(blocks) else None

def run(mu):
    d = '/tmp/mut_' + mu['name']
    shutil.rmtree(d, ignore_errors=True)
    subprocess.run(['cp', '-a', base, d], check=True)
    edited = set()
    for kind in ('edits', 'helper'):
        for f, a, b, *k in mu.get(kind, []):
            p = d + '/theories/' + f
            s = open(p).read()
            assert s.count(a) == (k[0] if k and k[0] else s.count(a) if k else 1), (mu['name'], f, a, s.count(a))
            s = s.replace(a, b)
            open(p, 'w').write(s)
            edited.add(f[:-2])
    dp = deps(d)
    need = set(wanted or names)
    for n in reversed(names):
        if n in need: need.update(dp.get(n, []))
    dirty = set()
    for n in names:
        if n not in need: continue
        if n in edited or any(x in dirty for x in dp.get(n, [])):
            dirty.add(n)
            for e in ('.vo', '.vok', '.vos', '.glob'):
                try: os.remove(d + '/theories/' + n + e)
                except OSError: pass
    res, failed, admitted = {}, {}, {}
    todo = [n for n in names if n in dirty]
    with cf.ThreadPoolExecutor(int(os.environ.get("JOBS", "4"))) as ex:
        fut = {}
        done = set(names) - dirty
        while todo or fut:
            for n in list(todo):
                ds = dp.get(n, [])
                if any(x in failed for x in ds):
                    failed[n] = 'depends on ' + [x for x in ds if x in failed][0]
                    todo.remove(n)
                elif all(x in done for x in ds):
                    fut[ex.submit(compile_one, d, n, mu.get('limit', 400))] = n
                    todo.remove(n)
            if not fut:
                continue
            fin, _ = cf.wait(fut, return_when=cf.FIRST_COMPLETED)
            for f in fin:
                n = fut.pop(f)
                ok, adm, out = f.result()
                if adm: admitted[n] = adm
                if ok:
                    done.add(n)
                    res[n] = out
                else:
                    failed[n] = out.strip()
    alladm = set(x for l in admitted.values() for x in l)
    bad, good = {}, []
    for n in names:
        if not n.startswith('Props') or n not in dirty: continue
        th = re.findall(r'^Theorem (\w+)', open(base + '/theories/' + n + '.v').read(), re.M)
        if n in failed:
            for t in th: bad[t] = 'file fails: ' + failed[n][-120:]
            continue
        bl = theorems(d, n, res[n]) or {}
        for t in th:
            if t in alladm: bad[t] = 'itself'
            elif t not in bl: bad[t] = '?'
            else:
                a = [x for x in alladm if re.search(r'(^|[.\n ])' + re.escape(x) + r'\b', bl[t])]
                if a: bad[t] = ','.join(sorted(a)[:3])
                else: good.append(t)
    shutil.rmtree(d, ignore_errors=True)
    br = mu.get('breaks', [])
    return dict(name=mu['name'], file=mu['file'], suspicious=[t for t in good if t.split('_')[0] in br],
                not_failed=[c for c in br if not any(t.split('_')[0] == c for t in bad)], edit=mu['edit'], claim=mu['claim'], failed=bad, survived=good,
                admitted=admitted, files_failed=failed)

for mu in ns['MUTANTS']:
    if only and mu['name'] not in only: continue
    try:
        print(json.dumps(run(mu)), flush=True)
    except AssertionError as e:
        print(json.dumps({'name': mu['name'], 'error': str(e)}), flush=True)
