#!/usr/bin/env python3
"""Run wrong-program experiments in a scratch copy.

usage: mutate.py SPEC.json   (list of {file, old, new, claim, note?})
For each edit: copy theories/ to a scratch directory, apply the edit, rebuild the files that
depend on it. A lemma whose proof fails is replaced by an admitted one so that the build
goes on; a theorem of a *Thms.v file counts as failed when its own proof fails or when
Print Assumptions lists such a lemma. Appends one line per edit to seeded/LOG.jsonl."""
import json, os, re, shutil, subprocess, sys
ROOT = '/verif'; SRC = os.environ.get('MUT_SRC') or ('/tmp/snap' if os.path.isdir('/tmp/snap') else ROOT); SCR = f'/tmp/mut{os.getpid()}'
def order():
    return [l.strip() for l in open(SRC + '/rocq/_CoqProject') if l.strip().endswith('.v')]
def deps(files):
    d = {}
    for f in files:
        s = open(f'{SRC}/rocq/{f}').read()
        mods = set()
        for m in re.finditer(r'From Verif Require Import ([^.]*)\.', s):
            mods |= set(m.group(1).split())
        mods |= set(re.findall(r'\bVerif\.([A-Za-z0-9_]+)', s))
        d[f] = {f'theories/{m}.v' for m in mods}
    return d
HEAD = re.compile(r'^\s*(?:#\[[^\]]*\]\s*)?(?:Local\s+|Global\s+)?(Lemma|Theorem|Corollary|Fact|Remark|Example|Definition|Fixpoint|Instance|Let)\s+([A-Za-z_0-9\']+)', re.M)
def compile_patched(path, timeout=300):
    failed = []
    while True:
        r = subprocess.run(['coqc', '-q', '-Q', SCR + '/theories', 'Verif', path], capture_output=True, text=True, timeout=timeout)
        if r.returncode == 0:
            return failed, r.stdout
        out = r.stdout + r.stderr
        m = re.search(r'File "[^"]*", line (\d+), characters (\d+)-(\d+):\s*\nError', out)
        if not m: return failed + ['?' + out[-300:]], ''
        line = int(m.group(1)); src = open(path).read()
        lines = src.split('\n'); pos = sum(len(x) + 1 for x in lines[:line - 1]) + int(m.group(2))
        heads = [h for h in HEAD.finditer(src) if h.start() <= pos]
        if not heads: return failed + ['?' + out[-300:]], ''
        h = heads[-1]; name = h.group(2)
        pm = re.compile(r'\bProof\b[^.]*\.').search(src, h.end())
        em = re.compile(r'\b(Qed|Defined)\.').search(src, h.end())
        if not pm or not em or pm.start() > em.start() or pos < pm.start() or name in failed:
            return failed + [name + '(statement)'], ''
        failed.append(name)
        src = src[:pm.start()] + 'Admitted.' + src[em.end():]
        open(path, 'w').write(src)
def run(edit):
    shutil.rmtree(SCR, ignore_errors=True); shutil.copytree(SRC + '/rocq/theories', SCR + '/theories')
    f = 'theories/' + edit['file']; p = f'{SCR}/{f}'
    s = open(p).read()
    if s.count(edit['old']) != 1: return {'error': f"old text occurs {s.count(edit['old'])} times"}
    open(p, 'w').write(s.replace(edit['old'], edit['new']))
    files = order()
    if f not in files: return {'error': f + ' is not in _CoqProject'}
    d = deps(files); dirty = {f}; lem = []; thms = []
    for g in files:
        if g in dirty or d[g] & dirty:
            dirty.add(g)
            try: bad, out = compile_patched(f'{SCR}/{g}')
            except subprocess.TimeoutExpired: bad, out = ['timeout:' + g], ''
            isthm = g.endswith('Thms.v')
            if isthm:
                thms += bad
                src = open(f'{SCR}/{g}').read()
                names = re.findall(r'^Print Assumptions ([A-Za-z_0-9\']+)\.', src, re.M)
                blocks = re.split(r'^(?=Closed under the global context|Axioms:)', out, flags=re.M)
                blocks = [b for b in blocks if b.startswith('Closed') or b.startswith('Axioms:')]
                for n, b in zip(names, blocks):
                    if b.startswith('Axioms:') and any(re.search(r'^(?:\w+\.)*' + re.escape(l) + r'\b', b, re.M) for l in lem + bad) and n not in thms:
                        thms.append(n)
            else:
                lem += bad
            if any(x.endswith('(statement)') or x.startswith(('?', 'timeout')) for x in bad) and not isthm:
                break
    return {'lemmas': lem, 'theorems': thms}
if __name__ == '__main__':
    for e in json.load(open(sys.argv[1])):
        r = run(e)
        print(json.dumps({'edit': e['new'][:80], **r}), flush=True)
        if 'error' in r: continue
        rec = {'definition': e.get('definition', e['file']), 'file': e['file'], 'edit': f"{e['old'].strip()}  ==>  {e['new'].strip()}", 'claim_broken': e['claim'],
               'theorems_failed': r['theorems'], 'lemmas_failed': r['lemmas'], 'theorems_tightened': e.get('tightened', []), 'note': e.get('note', '')}
        os.makedirs(ROOT + '/seeded', exist_ok=True)
        open(ROOT + '/seeded/LOG.jsonl', 'a').write(json.dumps(rec) + '\n')
