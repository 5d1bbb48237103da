#!/usr/bin/env python3
"""Run seeded mutants of the model: mutate.py mutants.json results.jsonl [id ...].
Each mutant is {"id", "file", "def", "old", "new", "claim"}: the text old (occurring once) of
theories/<file>.v is replaced in a scratch copy of /verif/rocq, which is then rebuilt.  The result
lists the statements whose proofs break first in each file and the property theorems that depend
on them (by name occurrence in the proof scripts).  With ROUNDS=n the proofs that break are left out
in the scratch copy and the rest is rebuilt, up to n times, to see which other proofs break.  An edit
that leaves a definition ill-formed is reported as invalid."""
import json, sys, re, os, subprocess, glob, collections
muts = json.load(open(sys.argv[1])); out = sys.argv[2]; only = set(sys.argv[3:])
done = set()
if os.path.exists(out):
    done = {json.loads(l)["id"] for l in open(out)}
SCR = os.environ.get("SCRATCH", "/tmp/seed/rocq")
ROUNDS = int(os.environ.get("ROUNDS", "1"))
SRC = os.environ.get("SOURCE", "/verif/rocq")
decl = re.compile(r'^\s*(?:Local\s+|Global\s+)?(Theorem|Lemma|Example|Corollary|Definition|Fixpoint|Inductive|Fact|Remark|Instance|Ltac)\s+([\w\']+)', re.M)
def decls(f):
    s = open(f).read()
    return [(s.count('\n', 0, m.start(2)) + 1, m.group(1), m.group(2)) for m in decl.finditer(s)], s
def graph():
    bodies = {}
    for f in glob.glob(SCR + '/theories/*.v'):
        ds, s = decls(f); lines = s.split('\n')
        for i, (ln, k, n) in enumerate(ds):
            end = ds[i+1][0] - 1 if i + 1 < len(ds) else len(lines)
            bodies.setdefault(n, (k, set()))[1].update(re.findall(r"[A-Za-z_][\w']*", '\n'.join(lines[ln-1:end])))
    return bodies
def leave_out(p, ln):
    lines = open(p).read().split('\n'); rest = '\n'.join(lines[ln-1:])
    mm = re.match(r"(.*?)\bProof\b.*?\n?[^\n]*?\b(Qed|Defined)\.", rest, re.S)
    if not mm or decl.search(mm.group(0), 1 + len(lines[ln-1])): return False
    open(p, 'w').write('\n'.join(lines[:ln-1] + [mm.group(1) + 'Admitted.' + rest[mm.end():]]))
    return True
def run(m):
    subprocess.run('rm -rf %s; cp -a %s %s' % (SCR, SRC, SCR), shell=True, check=True)
    p = '%s/theories/%s.v' % (SCR, m["file"]); s = open(p).read()
    if s.count(m["old"]) != 1: return {"id": m["id"], "error": "old text occurs %d times" % s.count(m["old"])}
    open(p, 'w').write(s.replace(m["old"], m["new"]))
    broken = []; invalid = False
    for _ in range(ROUNDS):
        r = subprocess.run('coq_makefile -f _CoqProject -o Makefile >/dev/null 2>&1; timeout 3000 make -k -j3 2>&1', shell=True, cwd=SCR, capture_output=True, text=True)
        new = []
        for mm in re.finditer(r'File "\./theories/(\w+)\.v", line (\d+), characters [\d-]+:\nError:?([^\n]*)\n?([^\n]*)', r.stdout):
            ds, _s = decls('%s/theories/%s.v' % (SCR, mm.group(1)))
            name = [(k, n, ln) for (ln, k, n) in ds if ln <= int(mm.group(2))]
            k, n, ln = name[-1] if name else ('?', '?', 0)
            new.append({"file": mm.group(1), "line": int(mm.group(2)), "kind": k, "name": n, "msg": (mm.group(3) + ' ' + mm.group(4)).strip()[:160]})
            if not leave_out('%s/theories/%s.v' % (SCR, mm.group(1)), ln): invalid = True
        broken += new
        if not new or invalid: break
    g = graph(); bad = {b["name"] for b in broken}; ch = True
    while ch:
        ch = False
        for n, (k, u) in g.items():
            if n not in bad and k not in ('Definition', 'Inductive') and u & bad: bad.add(n); ch = True
    hit = sorted(n for n in bad if re.match(r'C\d\d_', n) and g.get(n, ('',))[0] == 'Theorem')
    return {"id": m["id"], "file": m["file"], "def": m["def"], "old": m["old"], "new": m["new"], "claim": m["claim"], "broken": broken, "theorems": hit, "survived": not broken and r.returncode == 0, "invalid": invalid, "rc": r.returncode}
for m in muts:
    if m["id"] in done or (only and m["id"] not in only): continue
    res = run(m)
    open(out, 'a').write(json.dumps(res) + '\n')
    print(m["id"], res.get("error") or ("INVALID" if res["invalid"] else "SURVIVED" if res["survived"] else [b["name"] for b in res["broken"]]), flush=True)
