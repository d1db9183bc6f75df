"""Write COVERAGE.md: which source files the model cites, with the line ranges named, and which it does not."""
import glob, os, re
SRC = '/repo/src'
files = {}
for d, _, fs in os.walk(SRC):
    for f in fs:
        if f.endswith(('.cc', '.h')):
            files.setdefault(f, []).append(os.path.relpath(os.path.join(d, f), SRC))
cited = {}
for p in sorted(glob.glob('/verif/rocq/theories/*.v')):
    part = os.path.basename(p)[:-2]
    if 'Model' not in part:
        continue
    text = open(p).read()
    out, depth, i = [], 0, 0
    while i < len(text):
        if text.startswith('(*', i):
            depth += 1; i += 2; continue
        if text.startswith('*)', i) and depth:
            depth -= 1; i += 2; out.append(' \n'); continue
        if depth:
            out.append(text[i])
        i += 1
    cur = None
    for c in ''.join(out).split(' \n'):
        for m in re.finditer(r'([A-Za-z_0-9/]*[a-z_0-9]+\.(?:cc|h))\b|(?::|(?<=[ (]))(\d+)-(\d+)|:(\d+)', c):
            if m.group(1):
                name = m.group(1).replace('/repo/src/', '').replace('src/', '').lstrip('/')
                cands = [x for x in files.get(os.path.basename(name), []) if x.endswith(name)]
                if len(cands) > 1:
                    cands = [x for x in cands if not x.startswith('client')] or cands
                cur = cands[0] if cands else None
                if cur:
                    cited.setdefault(cur, {}).setdefault(part, set())
            elif cur:
                a = int(m.group(2) or m.group(4)); b = int(m.group(3) or m.group(4))
                for f in (cur, cur[:-2] + '.cc'):
                    q = os.path.join(SRC, f)
                    if os.path.exists(q) and 0 < a <= b <= sum(1 for _ in open(q, errors='replace')):
                        cited.setdefault(f, {}).setdefault(part, set()).add((a, b))
                        break
def merge(rs):
    out = []
    for a, b in sorted(rs):
        if out and a <= out[-1][1] + 1:
            out[-1][1] = max(out[-1][1], b)
        else:
            out.append([a, b])
    return out
lines = ['# Which parts of the code are modelled', '',
         'Made by `tools/coverage.py` from the citations in the comments of the `*Model*.v` files. Lines that a',
         'comment names without a file are counted for the file named last before it; a file',
         'named without lines (in a file header, or for one constant) is listed without lines. Within the lines named, what is',
         'left out or simplified is said in the comment that names them.', '',
         '## Modelled', '', '| file under src | model files | lines named |', '|---|---|---|']
for f in sorted(cited):
    parts = sorted(cited[f])
    rs = merge([r for p in parts for r in cited[f][p]])
    lines.append('| %s | %s | %s |' % (f, ', '.join(parts), ', '.join('%d-%d' % (a, b) if a < b else str(a) for a, b in rs) or '-'))
lines += ['', '## Not modelled', '', 'No part of these files is modelled; of the files above, nothing outside the lines named.', '']
by = {}
for fs in files.values():
    for f in fs:
        if f not in cited and f.endswith('.cc'):
            by.setdefault(os.path.dirname(f), []).append(os.path.basename(f))
for d in sorted(by):
    lines.append('- `%s`: %s' % (d or '.', ', '.join(sorted(by[d]))))
lines += ['- `serial`, `libexpr`: empty submodules in /repo',
          '- everything outside `src`: proto files (message fields appear as record fields of the model), java, python, conf, scripts and tests',
          '- libraries: braft and brpc (raft is an ordered log of committed entries, or commits in any order where the comment says so), RocksDB (ordered maps with atomic batches), faiss, hnswlib, diskann, tantivy (see the `Vec` and `Vq` comments for what is assumed of an index)']
open('/verif/COVERAGE.md', 'w').write('\n'.join(lines) + '\n')
