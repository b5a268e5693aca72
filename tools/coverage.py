#!/usr/bin/env python3
"""Which functions of /repo/src are cited by the model files.
Prints, per source file, the functions outside every cited line range."""
import re, glob, os, sys, collections
cited = collections.defaultdict(list); models = collections.defaultdict(set)
for f in glob.glob(os.path.join(os.path.dirname(__file__), '../rocq/theories/*.v')):
    s = open(f).read()
    for c in re.findall(r'\(\*.*?\*\)', s, flags=re.S):
        c = re.sub(r'\s+', ' ', c)
        for m in re.finditer(r'(src/[\w/]+\.rs)(?::((?:\d+(?:-\d+)?(?:,? (?:and )?)?)+))?', c):
            p, r = m.group(1), m.group(2)
            if f.endswith('_model.v'): models[p].add(os.path.basename(f)[:-2])
            for x in re.findall(r'(\d+)(?:-(\d+))?', r or ''):
                cited[p].append((int(x[0]), int(x[1] or x[0])))
tot = miss = 0
for p in sorted(glob.glob('/repo/src/**/*.rs', recursive=True)):
    q = os.path.relpath(p, '/repo')
    if q.endswith('lapack.rs'): continue
    L = open(p).read().split('\n'); out = []
    for i, l in enumerate(L, 1):
        m = re.match(r'\s*(?:pub(?:\([a-z]+\))? )?(?:default )?(?:unsafe )?fn (\w+|\$\w+)', l)
        if not m: continue
        # body range
        depth = 0; j = i; seen = False
        while j <= len(L):
            depth += L[j-1].count('{') - L[j-1].count('}')
            if '{' in L[j-1]: seen = True
            if not seen and ';' in L[j-1]: break
            if seen and depth <= 0: break
            j += 1
        if not seen: continue
        tot += 1
        if not any(a <= j and b >= i for a, b in cited[q]): out.append(f'{m.group(1)}:{i}'); miss += 1
    if '-v' in sys.argv or out: print(q, sorted(models[q]), ' '.join(out))
print(tot, 'functions,', miss, 'outside every cited range')
