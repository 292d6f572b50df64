#!/usr/bin/env python3
"""Run wrong programs against the theorems.

usage: mutate.py MUTANTS.json [ids...]
Each mutant: {"id", "file", "def", "old", "new", "nth" (optional), "edit", "claim", "expect": [property ids]}.
In a scratch copy the edit is made and everything rebuilt.  A proof that fails is replaced by a cheat and the build resumed, so
that finally every property theorem that (transitively) used a failed proof shows the cheat in its Print Assumptions.
Appends a line per mutant to the output file.
"""
import json, os, re, subprocess, sys, shutil, time
SRC, W = os.environ.get('MUTSRC', '/verif/rocq'), os.environ.get('MUTDIR', '/tmp/mut/rocq')
OUT = os.environ.get('MUTOUT', '/tmp/mut/results.jsonl')
J = os.environ.get('MUTJ', '3')

def sh(cmd, **k): return subprocess.run(cmd, shell=True, capture_output=True, text=True, **k)

PROP = [l.strip()[9:-2] for l in open(SRC + '/_CoqProject') if l.startswith('theories/Prop')]

def reset():
    sh(f'rm -rf {W}; mkdir -p {os.path.dirname(W)}; cp -a {SRC} {W}')

def proofs(text):
    """list of (start of 'Proof.', end, name)"""
    res = []
    for m in re.finditer(r'\b(?:Theorem|Lemma|Example|Corollary|Fact|Remark|Definition)\s+([A-Za-z_0-9\']+)', text):
        p = re.compile(r'\bProof\.').search(text, m.end())
        nxt = re.compile(r'\b(?:Theorem|Lemma|Example|Corollary|Fact|Remark)\s').search(text, m.end())
        if not p or (nxt and nxt.start() < p.start()): continue
        q = re.compile(r'\b(?:Qed|Defined)\.').search(text, p.end())
        if q: res.append((p.start(), q.end(), m.group(1)))
    return res

def run(mu):
    t0 = time.time()
    reset()
    f = f"{W}/theories/{mu['file']}.v"
    s = open(f).read()
    d = s.index(mu['def']) if mu.get('def') else 0
    k = s.find(mu['old'], d)
    for _ in range(mu.get('nth', 1) - 1): k = s.find(mu['old'], k + 1)
    if k < 0: return {**mu, 'error': 'pattern not found'}
    s = s[:k] + mu['new'] + s[k + len(mu['old']):]
    open(f, 'w').write(s)
    # the cheat lives at the end of the edited file
    open(f, 'a').write('\nAxiom mutant_cheat : forall P : Prop, P.\n')
    failed, outs = [], {}
    for it in range(40):
        r = sh(f'cd {W} && timeout 3000 make -k -j{J} TIMED= 2>&1 | grep -v "^Closed\\|Warning"')
        out = r.stdout
        errs = re.findall(r'File "\./theories/(\w+)\.v", line (\d+), characters [\d-]+:\nError:?(.*(?:\n.*)?)', out)
        if not errs:
            if 'Error' in out: return {**mu, 'error': out[-1500:], 'failed': failed}
            break
        done = set()
        for (fn, ln, msg) in errs:
            if fn in done: continue
            done.add(fn)
            path = f'{W}/theories/{fn}.v'
            t = open(path).read()
            pos = sum(len(x) + 1 for x in t.split('\n')[:int(ln) - 1])
            eol = t.find('\n', pos)
            hit = [x for x in proofs(t) if x[0] <= eol and pos < x[1]]
            if not hit: return {**mu, 'error': f'{fn}:{ln} not in a proof: {msg}', 'failed': failed}
            # on a shared line take the last proof whose 'Proof.' precedes; cheat them all
            for a, b, name in sorted(hit, reverse=True):
                t = t[:a] + f"Proof. exact (Verif.{mu['file']}.mutant_cheat _). Qed." + t[b:]
                failed.append(f'{fn}.{name}')
            open(path, 'w').write(t)
    # which property theorems used a cheat
    bad = []
    for pf in PROP:
        names = re.findall(r'Print Assumptions (\w+)\.', open(f'{W}/theories/{pf}.v').read())
        q = 'From Verif Require Import %s.\n' % pf + ''.join(f'Print Assumptions {n}.\n' for n in names)
        open(W + '/q.v', 'w').write(q)
        r = sh(f'cd {W} && coqc -Q theories Verif -w none q.v')
        blocks = re.split(r'(?m)^(?=Closed under|Axioms:)', r.stdout)
        blocks = [b for b in blocks if b.strip()]
        if len(blocks) != len(names): return {**mu, 'error': f'{pf}: {len(blocks)} blocks {len(names)} names ' + r.stderr[-300:], 'failed': failed}
        bad += [n for n, b in zip(names, blocks) if 'mutant_cheat' in b]
    return {**mu, 'failed': failed, 'theorems_failed': bad, 'secs': round(time.time() - t0)}

if __name__ == '__main__':
    mus = json.load(open(sys.argv[1]))
    ids = set(sys.argv[2:])
    for mu in mus:
        if ids and mu['id'] not in ids: continue
        r = run(mu)
        with open(OUT, 'a') as o: o.write(json.dumps(r) + '\n')
        missing = [e for e in mu.get('expect', []) if not any(n.startswith(e + '_') for n in r.get('theorems_failed', []))]
        print(mu['id'], r.get('secs'), 'ERROR ' + r['error'] if 'error' in r else f"{len(r['theorems_failed'])} failed; missing {missing}", flush=True)
