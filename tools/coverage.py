#!/usr/bin/env python3
"""Rewrite the generated parts of DESIGN.md: which lines of the sources each model file cites, and
what Print Assumptions reports for each property theorem.  Run in /verif."""
import glob, os, re, subprocess, tempfile

T = 'rocq/theories'
REPO = '/repo'
# short names used in the comments of one model file
AMBIGUOUS = {
    ('GoldModel', 'fr.hpp'): 'code_producers/src/c_elements/goldilocks/fr.hpp',
    ('BusModel', 'components/mod.rs'): 'code_producers/src/components/mod.rs',
    ('DatModel', 'components/mod.rs'): 'code_producers/src/components/mod.rs',
    ('StorageModel', 'mod.rs'): 'circom_algebra/src/constraint_storage/mod.rs',
    ('StorageModel', 'logic.rs'): 'circom_algebra/src/constraint_storage/logic.rs',
    ('PipelineModel', 'lib.rs'): 'constraint_list/src/lib.rs',
    ('ParserModel', 'lib.rs'): 'parser/src/lib.rs',
    ('ConstantsModel', 'environment.rs'): 'program_structure/src/utils/environment.rs',
    ('EnvModel', 'environment.rs'): 'program_structure/src/utils/environment.rs',
    ('SymModel', 'environment.rs'): 'constraint_generation/src/environment_utils/environment.rs',
    ('DagModel', 'sym_porting.rs'): 'dag/src/sym_porting.rs',
    ('DatModel', 'main.cpp'): 'code_producers/src/c_elements/common/main.cpp',
    ('BusModel', 'main.cpp'): 'code_producers/src/c_elements/common/main.cpp',
    ('InputModel', 'main.cpp'): 'code_producers/src/c_elements/common/main.cpp',
    ('InputModel', 'calcwit.cpp'): 'code_producers/src/c_elements/common/calcwit.cpp',
    ('DatModel', 'circom.hpp'): 'code_producers/src/c_elements/common/circom.hpp',
    ('BusModel', 'build.rs'): 'compiler/src/circuit_design/build.rs',
    ('FrModel', 'fr.cpp'): 'code_producers/src/c_elements/generic/fr.cpp',
}
files = [f[len(REPO) + 1:] for ext in ('rs', 'cpp', 'js', 'hpp', 'lalrpop')
         for f in glob.glob(REPO + '/**/*.' + ext, recursive=True)] if os.path.isdir(REPO) else []

def resolve(model, short):
    if (model, short) in AMBIGUOUS:
        return AMBIGUOUS[(model, short)]
    hits = [f for f in files if f == short or f.endswith('/' + short)]
    return hits[0] if len(hits) == 1 else short

def cites(model):
    text = open(f'{T}/{model}.v').read()
    text = re.sub(r'\s+', ' ', ' '.join(re.findall(r'\(\*\*?.*?\*\)', text, re.S)))
    out = {}
    for m in re.finditer(r'([A-Za-z_0-9/]+\.(?:rs|cpp|js|hpp|lalrpop)):(\d+(?:-\d+)?(?:, ?\d+(?:-\d+)?)*)', text):
        f = resolve(model, m.group(1))
        for r in re.split(r', ?', m.group(2)):
            a, b = (r.split('-') + [r])[:2]
            out.setdefault(f, set()).update(range(int(a), int(b) + 1))
    return out

def ranges(s):
    s = sorted(s); out = []; i = 0
    while i < len(s):
        j = i
        while j + 1 < len(s) and s[j + 1] <= s[j] + 2:
            j += 1
        out.append(f'{s[i]}-{s[j]}' if j > i else str(s[i])); i = j + 1
    return ', '.join(out)

def coverage():
    rows = ['| model | source | lines cited |', '|---|---|---|']
    for path in sorted(glob.glob(f'{T}/*Model.v')):
        model = os.path.basename(path)[:-2]
        for f, s in sorted(cites(model).items()):
            rows.append(f'| {model} | {f} | {ranges(s)} |')
    return '\n'.join(rows)

def assumptions():
    order = [l.strip()[9:-2] for l in open('rocq/_CoqProject') if l.startswith('theories/Properties')]
    rows = []
    for name in order:
        names = re.findall(r'^Print Assumptions (\w+)\.', open(f'{T}/{name}.v').read(), re.M)
        with tempfile.TemporaryDirectory() as d:
            open(d + '/a.v', 'w').write(f'From Verif Require Import {name}.\n' + ''.join(f'Print Assumptions {n}.\n' for n in names))
            r = subprocess.run(['coqc', '-Q', 'theories', 'Verif', d + '/a.v'], cwd='rocq', capture_output=True, text=True).stdout
        closed = r.count('Closed under the global context')
        state = 'all closed under the global context' if closed == len(names) else 'CHECK: ' + r
        rows.append(f'* {name} ({len(names)}, {state}): ' + ', '.join(names) + '.')
    return '\n'.join(rows)

d = open('DESIGN.md').read()
for tag, gen in (('coverage', coverage), ('assumptions', assumptions)):
    a, b = f'<!-- {tag} -->', f'<!-- end {tag} -->'
    i, j = d.index(a) + len(a), d.index(b)
    d = d[:i] + '\n' + gen() + '\n' + d[j:]
open('DESIGN.md', 'w').write(d)
