#!/usr/bin/env python3
"""Mutation tests of the model. Usage: mutate.py MUTATIONS.json [WORKDIR]
Each mutation: {"id","file","old","new","targets":[Props files],"claim","definition","edit"}.
The edit is applied in a scratch copy of rocq/, the targets are rebuilt; a proof that breaks is
replaced by Admitted so that everything that does not depend on it is still checked. At the end
Print Assumptions tells which property theorems (Cxx_...) rest on a broken proof."""
import json, os, re, subprocess, sys, shutil
SRC = os.environ.get('MUT_SRC', '/verif/rocq')
def blocks(text):
    out = []
    for m in re.finditer(r'^[ \t]*(?:Local |Global |#\[[^\]]*\] )?(Lemma|Theorem|Example|Corollary|Remark|Fact|Instance|Fixpoint|Definition)\s+([\w\']+)', text, re.M):
        out.append((m.start(), m.group(1), m.group(2)))
    return out
def run(mu, work):
    shutil.rmtree(work, ignore_errors=True); subprocess.run(['cp', '-a', SRC, work], check=True)
    path = f"{work}/theories/{mu['file']}"
    t = open(path).read()
    if t.count(mu['old']) != 1:
        return {'id': mu['id'], 'error': f"pattern occurs {t.count(mu['old'])} times"}
    open(path, 'w').write(t.replace(mu['old'], mu['new']))
    targets = [f'theories/{x}.vo' for x in mu['targets']]
    broken, hard = [], None
    for it in range(60):
        p = subprocess.run(f"cd {work} && (ulimit -v 8000000; timeout 1500 make -k -j2 {' '.join(targets)})", shell=True, capture_output=True, text=True)
        errs = re.findall(r'File "\./(theories/\w+\.v)", line (\d+), characters (\d+)-(\d+):\s*\nError', p.stdout + p.stderr)
        if p.returncode == 0: break
        if not errs: hard = (p.stdout + p.stderr)[-600:]; break
        progress = False
        for f, ln, a, b in errs:
            txt = open(f'{work}/{f}').read()
            lines = txt.encode().split(b'\n')
            off = sum(len(x) + 1 for x in lines[:int(ln) - 1]) + int(a)
            off = len(txt.encode()[:off].decode(errors='ignore'))
            bl = [x for x in blocks(txt) if x[0] <= off]
            if not bl: hard = f'{f}:{ln}'; break
            st, kind, name = bl[-1]
            pr = re.search(r'\bProof\.', txt[st:])
            en = re.search(r'\b(Qed|Defined)\.', txt[st:])
            if not pr or not en or pr.start() > en.start() or st + pr.start() > off:
                # statement or definition does not typecheck
                if kind in ('Lemma', 'Theorem', 'Example', 'Corollary') and en:
                    new = txt[:st] + '(* dropped *) ' + txt[st + en.end():]
                    broken.append(f'{os.path.basename(f)[:-2]}.{name} (statement)')
                    open(f'{work}/{f}', 'w').write(new); progress = True; continue
                hard = f'{f}:{ln} in {kind} {name}: ' + (p.stdout + p.stderr)[-300:]; break
            if en.group(1) == 'Defined': hard = f'{f}:{ln} Defined {name}'; break
            if kind == 'Example':
                new = txt[:st] + '(* dropped *) ' + txt[st + en.end():]
            else:
                # keep the script up to the failing sentence (its section variables)
                new = txt[:st + pr.end()] + ' Admitted.' + txt[st + en.end():]
            open(f'{work}/{f}', 'w').write(new)
            broken.append(f'{os.path.basename(f)[:-2]}.{name}'); progress = True
        if hard or not progress: break
    failed = []
    if not hard:
        for x in mu['targets']:
            names = re.findall(r'^Theorem\s+(C\d\d\w*)', open(f'{work}/theories/{x}.v').read(), re.M)
            orig = re.findall(r'^Theorem\s+(C\d\d\w*)', open(f'{SRC}/theories/{x}.v').read(), re.M)
            q = f'From Verif Require Import {x}.\n' + ''.join(f'Print Assumptions {n}.\n' for n in names)
            open(f'{work}/Q.v', 'w').write(q)
            r = subprocess.run(f'cd {work} && coqc -Q theories Verif Q.v', shell=True, capture_output=True, text=True)
            parts = re.split(r'(?=^Closed under|^Axioms:|^Section Variables:)', r.stdout, flags=re.M)
            parts = [y for y in parts if y.strip()]
            if len(parts) != len(names): hard = 'assumption listing: ' + r.stderr[-300:]
            failed += [n for n, y in zip(names, parts) if not y.startswith('Closed')]
            failed += [n for n in orig if n not in names]
    return {'id': mu['id'], 'broken_proofs': broken, 'failed': failed, 'hard': hard, 'iterations': it}
if __name__ == '__main__':
    work = sys.argv[2] if len(sys.argv) > 2 else '/tmp/mut/work'
    for mu in json.load(open(sys.argv[1])):
        r = run(mu, work)
        print(json.dumps(r), flush=True)
        with open('/tmp/mut/results.jsonl', 'a') as g: g.write(json.dumps({**mu, **r}) + '\n')
