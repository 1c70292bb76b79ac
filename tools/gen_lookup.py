#!/usr/bin/env python3
"""Turn the text of shgpy/core/_lookup_table.py into rocq/theories/LookupTable.v.

The file is read as text, never executed: each entry is `0`, a decimal number or
a decimal number times I, and is written as an exact pair of rationals.
"""
import os
import re
from fractions import Fraction

here = os.path.dirname(os.path.dirname(os.path.abspath(__file__)))
src = open('/repo/shgpy/core/_lookup_table.py').read()


def q(f):
    f = Fraction(f)
    if f.denominator == 1:
        return f'({f.numerator}#1)' if f else '0'
    return f'({f.numerator}#{f.denominator})'


def entry(t):
    t = t.strip()
    if t.endswith('*I'):
        return f'(0, {q(t[:-2])})'
    if t == '-I' or t == 'I':
        return f'(0, {q(t.replace("I", "1"))})'
    return f'({q(t)}, 0)'


rows = []
for m in re.finditer(r'\((\d+), (\d+)\): \[(.*?)\]', src, re.S):
    c, s, body = m.groups()
    es = [entry(t) for t in body.split(',')]
    # twelve entries to a line
    lines = ['; '.join(es[i:i + 11]) for i in range(0, len(es), 11)]
    rows.append(f'    (({c}, {s})%nat, [' + ';\n      '.join(lines) + '])')

out = '''(** The Fourier lookup table (shgpy/core/_lookup_table.py, whole file): for the
    code (c, s) of cos(phi)^c sin(phi)^s the list of 33 components, component n at
    position n + 16.  Generated by tools/gen_lookup.py from the text of the file;
    each decimal is the exact rational, [(a, b)] stands for a + b*I. *)
From Coq Require Import QArith List.
Import ListNotations.
Local Open Scope Q_scope.

Definition lookup_table : list ((nat * nat) * list (Q * Q)) :=
  [
''' + ';\n'.join(rows) + '\n  ].\n'
open(os.path.join(here, 'rocq/theories/LookupTable.v'), 'w').write(out)
print(len(rows))
