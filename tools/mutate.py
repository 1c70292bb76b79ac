#!/usr/bin/env python3
"""Mutation testing of the model.

Each mutation edits one definition of the model in a scratch copy.  The copy is
rebuilt; a proof that no longer goes through is replaced by [Admitted] in the
scratch copy and the build continues, so that every broken proof is found.  A
property theorem counts as failed when its own proof broke or when it depends on a
broken lemma (read off Print Assumptions).  Results go to seeded/LOG.jsonl.

usage: mutate.py MUTATIONS.json [name ...]
"""
import json, os, re, shutil, subprocess, sys

here = os.path.dirname(os.path.dirname(os.path.abspath(__file__)))
scratch = os.environ.get('SCRATCH', '/tmp/mutation')
source = os.environ.get('SOURCE', os.path.join(here, 'rocq'))


def sh(cmd, timeout=3000):
    return subprocess.run(cmd, shell=True, capture_output=True, text=True, timeout=timeout, cwd=scratch)


def modules():
    return [l.strip() for l in open(os.path.join(scratch, '_CoqProject')) if l.strip().endswith('.v')]


def prepare():
    shutil.rmtree(scratch, ignore_errors=True)
    subprocess.run(f'cp -rp {source} {scratch}', shell=True, check=True)
    sh('coq_makefile -f _CoqProject -o Makefile')


def admit(path, line):
    """Replace the proof around `line` by Admitted; return the lemma's name."""
    text = open(path).read().split('\n')
    i = min(line - 1, len(text) - 1)
    while i >= 0 and not re.search(r'\bProof\.', text[i]):
        if i < line - 1 and re.search(r'\b(Qed|Defined|Admitted)\.', text[i]):
            return None
        i -= 1
    if i < 0:
        return None
    j = i
    while j < len(text) and not re.search(r'\b(Qed|Defined)\.', text[j]):
        j += 1
    if j >= len(text) or j < line - 1 or 'Defined.' in text[j]:
        return None
    k = i
    name = None
    while k >= 0:
        m = re.search(r'^\s*(?:#\[[^]]*\]\s*)?(?:Global |Local )?(Theorem|Lemma|Corollary|Example|Fact|Remark|Proposition|Instance)\s+([A-Za-z0-9_\']+)', text[k])
        if m:
            name = m.group(2)
            break
        k -= 1
    pos = text[i].index('Proof.')
    text[i:j + 1] = [text[i][:pos] + 'Proof. Admitted.'] + [''] * (j - i)
    open(path, 'w').write('\n'.join(text))
    return name


def dependents(first, within=None):
    """Modules that depend on theories/first, in build order, itself included;
    only those that the modules in `within` need."""
    r = sh('coqdep -f _CoqProject 2>/dev/null')
    deps = {}
    for line in r.stdout.split('\n'):
        m = re.match(r'theories/(\w+)\.vo .*?: (.*)$', line)
        if m:
            deps[m.group(1)] = set(re.findall(r'theories/(\w+)\.vo\b', m.group(2)))
    need = set(within) if within else set(deps)
    while True:
        more = set().union(*(deps[n] for n in need)) - need
        if not more:
            break
        need |= more
    hit = {first[:-2]}
    out = []
    order, todo = [], [os.path.basename(f)[:-2] for f in modules()]
    while todo:
        ready = [n for n in todo if not deps[n] & set(todo)]
        order += ready
        todo = [n for n in todo if n not in ready]
    for name in order:
        f = f'theories/{name}.v'
        if name in need and (name in hit or deps[name] & hit):
            hit.add(name)
            out.append(f)
    return out


def stuck(f):
    """Line of the sentence at which the compilation of f does not end."""
    r = sh(f'timeout 400 coqc -q -time -Q theories Verif {f} 2>/dev/null > stuck_tmp; true')
    done = re.findall(r'^Chars \d+ - (\d+) ', open(os.path.join(scratch, 'stuck_tmp'), errors='replace').read(), re.M)
    raw = open(os.path.join(scratch, f), 'rb').read()
    end = max(map(int, done)) if done else 0
    while raw[end:end + 1].isspace():
        end += 1
    return raw[:end].count(b'\n') + 1


def build(first, within=None):
    """Build, admitting what breaks; list of (file, lemma), and an error text."""
    broken = []
    for f in dependents(first, within):
        for _ in range(200):
            r = sh(f'timeout 400 coqc -q -Q theories Verif {f} 2>&1 >/dev/null')
            if r.returncode == 0:
                break
            if r.returncode == 124:
                g, l = f, stuck(f)
                name = admit(os.path.join(scratch, g), l)
                if name is None:
                    return broken, f'{g}:{l} takes too long outside a proof'
                broken.append((os.path.basename(g)[:-2], name))
                continue
            ms = re.findall(r'File "\./(theories/\w+\.v)", line (\d+), characters [^\n]*\nError', r.stderr + r.stdout)
            if not ms:
                return broken, (r.stderr + r.stdout)[-600:] or f'{f}: no message'
            g, l = ms[0]
            name = admit(os.path.join(scratch, g), int(l))
            if name is None:
                return broken, f'{g}:{l} not inside a proof: ' + (r.stderr + r.stdout)[-400:]
            broken.append((os.path.basename(g)[:-2], name))
    return broken, None


def failing_theorems(broken, within=None):
    man = json.load(open(os.path.join(here, 'MANIFEST.json')))
    mods = within or [os.path.basename(m)[:-2] for m in modules() if os.path.basename(m).startswith('Properties')]
    text = ''.join(open(os.path.join(scratch, 'theories', m + '.v')).read() for m in mods)
    names = sorted({t for c in man['claims'] for t in c['theorems']
                    if re.search(r'\b(Theorem|Lemma|Corollary)\s+' + t + r'\b', text)})
    bad = {n for _, n in broken}
    src = 'From Verif Require Import %s.\n' % ' '.join(mods)
    for n in names:
        src += f'Print Assumptions {n}.\nCheck True.\n'
    open(os.path.join(scratch, 'pa_tmp.v'), 'w').write(src)
    r = sh('coqc -Q theories Verif pa_tmp.v')
    chunks = re.split(r'\nTrue\n\s*: Prop\n?', '\n' + r.stdout)
    assert r.returncode == 0 and len(chunks) >= len(names), r.stderr[-500:]
    res = []
    for n, c in zip(names, chunks):
        used = {x.split('.')[-1] for x in re.findall(r'^(\S+)\s*(?=:|$)', c, re.M)}
        if n in bad or used & bad:
            res.append(n)
    return res


def main():
    muts = json.load(open(sys.argv[1]))
    only = set(sys.argv[2:])
    for mu in muts:
        if only and mu['name'] not in only:
            continue
        prepare()
        p = os.path.join(scratch, 'theories', mu['file'])
        s = open(p).read()
        if s.count(mu['old']) < 1:
            print('NOT FOUND', mu['name'])
            continue
        if s.count(mu['old']) > 1 and not mu.get('first'):
            print('AMBIGUOUS', mu['name'])
            continue
        open(p, 'w').write(s.replace(mu['old'], mu['new'], 1))
        broken, err = build(mu['file'], mu.get('within'))
        rec = dict(definition=mu['file'] + ': ' + mu['definition'], edit=mu['edit'], claim=mu['claim'])
        if err:
            rec['build_error'] = err
        fails = failing_theorems(broken, mu.get('within')) if not err else []
        rec['theorems_failed'] = fails
        rec['proofs_broken'] = [n for _, n in broken]
        rec['theorems_tightened'] = mu.get('tightened', [])
        hit = any(t.startswith(c) for t in fails for c in mu['claim'].split())
        rec['caught'] = bool(hit)
        print(mu['name'], 'CAUGHT' if hit else 'SURVIVED', fails, 'broken:', len(broken), err or '', flush=True)
        with open(os.environ.get('MUTLOG', os.path.join(here, 'seeded', 'LOG.jsonl')), 'a') as fh:
            fh.write(json.dumps(rec) + '\n')


main()
