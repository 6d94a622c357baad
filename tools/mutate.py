#!/usr/bin/env python3
"""Runs mutants of the model: for each (file, definition, old, new, claim) copies the built rocq tree to a scratch
directory, applies the edit and rebuilds.  A lemma whose proof no longer checks is closed with a marker axiom, so that
the build goes on; the property theorems that fail are those that then depend on the marker.
usage: mutate.py BASE SCRATCH LOG MUTANTS.py [name ...]"""
import sys, re, os, json, shutil, subprocess, glob
BASE, SCR, LOG, MUTS = sys.argv[1:5]
only = set(sys.argv[5:])
USING = json.load(open(os.path.join(os.path.dirname(SCR.rstrip('/')), 'using.json'))) if os.path.exists(os.path.join(os.path.dirname(SCR.rstrip('/')), 'using.json')) else {}
exec(open(MUTS).read())   # defines M: list of dicts
START = re.compile(r'^\s*(?:Local\s+|Global\s+|#\[\w+\]\s*)*(Lemma|Theorem|Example|Fact|Remark|Corollary|Proposition)\s+([\w\']+)', re.M)
def sh(cmd, **k): return subprocess.run(cmd, shell=True, capture_output=True, text=True, **k)
def make():
    return sh(f'cd {SCR} && timeout 1500 make -k -j2 -f Makefile 2>&1 | cat')
def enclosing(txt, pos):
    best = None
    for m in START.finditer(txt):
        if m.start() <= pos: best = m
        else: break
    if best is None: return None
    e = re.compile(r'\b(Qed|Defined)\.').search(txt, best.end())
    p = re.compile(r'^\s*Proof\b[^.]*\.|\bProof\b[^.]*\.', re.M).search(txt, best.end())
    if e is None or p is None or pos > e.end() or p.start() > e.start(): return None
    return best.group(2), p.start(), e.end(), best.start()
def run(mu):
    name = mu['name']
    sh(f'rm -rf {SCR}; cp -a {BASE} {SCR}')
    with open(f'{SCR}/theories/Mut.v', 'w') as f: f.write('Axiom mut_admit : False.\n')
    sh(f"cd {SCR} && grep -q Mut.v _CoqProject || sed -i 's#^theories/Base_List.v#theories/Mut.v\\ntheories/Base_List.v#' _CoqProject && coq_makefile -f _CoqProject -o Makefile")
    fn = f'{SCR}/theories/{mu["file"]}'
    t = open(fn).read()
    if t.count(mu['old']) < 1: print(name, 'NOT FOUND', flush=True); return
    if t.count(mu['old']) > 1 and not mu.get('multi'): print(name, 'AMBIGUOUS', flush=True); return
    open(fn, 'w').write(t.replace(mu['old'], mu['new']))
    broken, stuck = [], []
    out = ''
    for it in range(40):
        r = make(); out = r.stdout
        errs = re.findall(r'File "\./?([^"]+)", line (\d+), characters (\d+)-(\d+):\n(?:(?!File ").*\n)*?Error', out)
        if not errs:
            if 'Error' in out: stuck.append('unparsed: ' + out[-300:])
            break
        progress = False
        for (f, ln, c0, c1) in errs:
            p = f'{SCR}/{f}'; t = open(p).read()
            lines = t.split('\n'); pos = sum(len(x) + 1 for x in lines[:int(ln) - 1]) + 0
            pos += len(lines[int(ln)-1].encode()[:int(c0)].decode(errors='ignore'))
            en = enclosing(t, pos)
            if en is None or pos < en[1]:
                stuck.append(f'{f}:{ln} ' + lines[int(ln)-1][:120]); continue
            nm, ps, ee, _ = en
            base = os.path.basename(f)[:-2]
            us = USING.get(base + '.' + nm)
            head = 'Proof.' if us is None else f'Proof using {us}.'
            t = t[:ps] + f'\n{head} destruct Verif.Mut.mut_admit. Qed.' + '\n' * t[ps:ee].count('\n') + t[ee:]
            if 'Verif Require Mut.' not in t: t = 'From Verif Require Mut. ' + t
            open(p, 'w').write(t)
            broken.append(base + '.' + nm); progress = True
        if not progress: break
    # collect theorems
    ok, bad = [], []
    for f in sorted(glob.glob(f'{SCR}/theories/Prop_*.v')):
        b = os.path.basename(f)[:-2]
        vo = f[:-2] + '.vo'
        thms = re.findall(r'^Theorem\s+(C\d+_\w+)', open(f).read(), re.M)
        try:
            if not stuck and os.path.getmtime(vo) == os.path.getmtime(f'{BASE}/theories/{b}.vo'): ok += thms; continue
        except FileNotFoundError: pass
        if not os.path.exists(vo) or os.path.getmtime(vo) < os.path.getmtime(f) - 1e9:
            bad += thms; continue
        q = f'{SCR}/q_{b}.v'
        with open(q, 'w') as g:
            g.write(f'From Verif Require {b}.\n' + ''.join(f'Redirect "{SCR}/q_{b}_{x}" Print Assumptions Verif.{b}.{x}.\n' for x in thms))
        r = sh(f'cd {SCR} && coqc -w none -Q theories Verif {q}')
        for x in thms:
            try: o = open(f'{SCR}/q_{b}_{x}.out').read()
            except FileNotFoundError: bad.append(x); continue
            (bad if 'mut_admit' in o else ok).append(x)
    claim = mu['claim'].split()[0]
    hit = [x for x in bad if x.startswith(claim + '_')]
    rec = dict(definition=mu['file'][:-2] + '.' + mu['def'], edit=f"{mu['old'].strip()}  ==>  {mu['new'].strip()}", claim_broken=mu['claim'],
               theorems_failed=bad, lemmas_failed=broken, theorems_tightened=[], detected=bool(hit))
    if stuck: rec['ill_typed_at'] = stuck
    with open(LOG, 'a') as f: f.write(json.dumps(rec) + '\n')
    print(name, 'detected' if hit else 'SURVIVED', 'failed', len(bad), 'broken', broken[:6], 'stuck', stuck[:2], flush=True)
for mu in M:
    if only and mu['name'] not in only: continue
    run(mu)
