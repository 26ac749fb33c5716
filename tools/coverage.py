#!/usr/bin/env python3
"""Regenerates the table of section 5 of DESIGN.md from the citations in the model files."""
import re, glob, os, collections
cit = re.compile(r'([A-Za-z_0-9]+\.(?:cpp|h))((?:[:\s,]|and|lines)*\d+(?:-\d+)?(?:(?:\s*,\s*|\s+and\s+)\d+(?:-\d+)?)*)')
rng = re.compile(r'(\d+)(?:-(\d+))?')
rows = []
for f in sorted(glob.glob('rocq/theories/*Model*.v')):
    t = re.sub(r'\s+', ' ', open(f).read())
    m = collections.defaultdict(set)
    cur = None
    for name, nums in cit.findall(t):
        for a, b in rng.findall(nums):
            m[name].add((int(a), int(b) if b else int(a)))
    cells = []
    for name in sorted(m):
        rs = sorted(m[name]); merged = []
        for a, b in rs:
            if merged and a <= merged[-1][1] + 1: merged[-1][1] = max(merged[-1][1], b)
            else: merged.append([a, b])
        cells.append(name + ' ' + ', '.join(f'{a}-{b}' if a != b else f'{a}' for a, b in merged))
    rows.append(f'| `{os.path.basename(f)}` | ' + '; '.join(cells) + ' |')
s = open('DESIGN.md').read()
a, b = '<!-- coverage begin -->', '<!-- coverage end -->'
tab = '| model file | source lines cited |\n|---|---|\n' + '\n'.join(rows)
i, j = s.index(a) + len(a), s.index(b)
open('DESIGN.md', 'w').write(s[:i] + '\n' + tab + '\n' + s[j:])
