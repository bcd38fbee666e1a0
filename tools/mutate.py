#!/usr/bin/env python3
"""Mutation testing in a scratch copy.

usage: mutate.py edits.json log.jsonl [scratch]

edits.json is a list of {file, old, new, definition, edit, claim} and optionally targets
(the .vo files to be rebuilt; all by default).  For every edit the
model file is changed in a copy of rocq/; proofs that no longer check are admitted there
one after the other, and the theorems of Properties/ whose assumptions contain an admitted
lemma (or that fail themselves) are reported as failed.  One JSON line per edit is
appended to the log."""
import glob, json, os, re, shutil, subprocess, sys
root = os.path.dirname(os.path.dirname(os.path.abspath(__file__)))
edits, log = json.load(open(sys.argv[1])), sys.argv[2]
scratch = sys.argv[3] if len(sys.argv) > 3 else '/tmp/mut'
base, work = scratch + '/base', scratch + '/work'
DECL = re.compile(r'^\s*(?:Local\s+|Global\s+|#\[[^\]]*\]\s*)?(Lemma|Theorem|Example|Let|Fact|Corollary|Remark|Definition)\s+([\w\']+)')

def sh(cmd, cwd, timeout=1500):
    try:
        return subprocess.run(cmd, shell=True, cwd=cwd, timeout=timeout, capture_output=True, text=True)
    except subprocess.TimeoutExpired:
        return None

def enclosing(lines, n):
    for i in range(n - 1, -1, -1):
        m = DECL.match(lines[i])
        if m: return i, m.group(1), m.group(2)
        if i < n - 1 and re.match(r'.*\bQed\.\s*$', lines[i]): return None
    return None

def admit(path, n):
    """Replace the proof containing line n by Admitted; return the lemma name or None."""
    lines = open(path).read().split('\n')
    e = enclosing(lines, n)
    if e is None: return None
    i, kind, name = e
    txt = '\n'.join(lines[i:])
    m = re.search(r'\n?\s*\bProof\b', txt)
    q = re.search(r'\bQed\.', txt)
    if not m or not q or q.start() < m.start(): return None
    if n - 1 < i + txt[:m.start()].count('\n'): return None
    new = txt[:m.start()] + '\nProof. Admitted.' + txt[q.end():]
    open(path, 'w').write('\n'.join(lines[:i] + [new]))
    return name

def prop_theorems():
    out = []
    for f in sorted(glob.glob(work + '/theories/Properties/*.v')):
        b = base + f[len(work):] + 'o'
        if os.path.getmtime(f + 'o') == os.path.getmtime(b): continue  # not rebuilt
        txt = re.sub(r'\(\*.*?\*\)', '', open(f).read(), flags=re.S)
        out.append((os.path.basename(f)[:-2], re.findall(r'^\s*Theorem\s+(C\d\d_\w+)', txt, flags=re.M)))
    return out

shutil.rmtree(base, ignore_errors=True)
os.makedirs(scratch, exist_ok=True)
shutil.copytree(root + '/rocq', base)
r = sh('coq_makefile -f _CoqProject -o Makefile && make -j3', base, 3600)
assert r and r.returncode == 0, r and r.stderr[-2000:]
for ed in edits:
    shutil.rmtree(work, ignore_errors=True)
    sh('cp -a %s %s' % (base, work), '/')
    p = work + '/theories/' + ed['file']
    s = open(p).read()
    if s.count(ed['old']) != 1:
        print('BAD EDIT', ed['definition'], ed['edit'], s.count(ed['old'])); continue
    open(p, 'w').write(s.replace(ed['old'], ed['new']))
    broken, note = [], ''
    for it in range(40):
        r = sh('make -k -j2 %s 2>&1' % ed.get('targets', ''), work)
        if r is None: note = 'build timed out'; break
        if r.returncode == 0: break
        errs = []
        for m in re.finditer(r'File "\./(theories/[\w/]+\.v)", line (\d+), characters[^\n]*\nError', r.stdout):
            errs.append((m.group(1), int(m.group(2))))
        if not errs: note = 'unparsed failure: ' + r.stdout[-300:]; break
        stuck = True
        for f, n in dict(errs).items():
            nm = admit(work + '/' + f, n)
            if nm: broken.append(nm); stuck = False
            else: note = 'stuck at %s:%d' % (f, n)
        if stuck: break
    failed = []
    if not note:
        q = ['From Coq Require Import String.']
        for mod, ths in prop_theorems():
            q.append('From Verif Require Properties.%s.' % mod)
            for t in ths:
                q.append('Eval compute in "@@%s"%%string.\nPrint Assumptions Properties.%s.%s.' % (t, mod, t))
        open(work + '/pa.v', 'w').write('\n'.join(q))
        r = sh('coqc -w none -Q theories Verif pa.v', work)
        for blk in re.split(r'= "@@', r.stdout)[1:]:
            t = blk[:blk.index('"')]
            if t in broken or any(re.search(r'^(?:[\w.]*\.)?%s\s*(:|$)' % re.escape(b), blk, flags=re.M) for b in broken):
                failed.append(t)
    else:
        failed = sorted(set(b for b in broken if re.match(r'C\d\d_', b)))
    rec = {'definition': ed['definition'], 'edit': ed['edit'], 'claim': ed['claim'],
           'failed_theorems': failed, 'first_broken_lemma': broken[0] if broken else '',
           'detected': bool(failed or broken), 'tightened': ed.get('tightened', [])}
    if note: rec['note'] = note
    with open(log, 'a') as f: f.write(json.dumps(rec) + '\n')
    print(ed['definition'], '|', ed['edit'], '->', 'DETECTED' if broken else 'SURVIVED', len(failed), failed[:6], note, flush=True)
