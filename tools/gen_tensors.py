#!/usr/bin/env python3
"""Turn the text of shgpy/tensor_definitions.py into rocq/theories/TensorDefs.v.

Both source files are read as text and parsed with `ast`; nothing is executed.
Every table entry is 0, a symbol, a negated symbol or a sum of those; the
symbols' names and assumptions come from shg_symbols.py.
"""
import ast
import os

here = os.path.dirname(os.path.dirname(os.path.abspath(__file__)))

names = {}
for node in ast.parse(open('/repo/shgpy/shg_symbols.py').read()).body:
    if isinstance(node, ast.Assign):
        call = node.value
        assert ast.unparse(call.func) == 'sp.symbols', ast.unparse(node)
        real = 'None'
        for k in call.keywords:
            assert k.arg == 'real' and k.value.value is True
            real = '(Some true)'
        assert len(node.targets) == 1
        names[node.targets[0].id] = (call.args[0].value, real)


def expr(n):
    if isinstance(n, ast.Constant):
        assert n.value == 0
        return 'nul'
    if isinstance(n, ast.Name):
        s, real = names[n.id]
        assert real == 'None'
        return f'(par "{s}")'
    if isinstance(n, ast.UnaryOp):
        assert isinstance(n.op, ast.USub)
        return f'(neg {expr(n.operand)})'
    assert isinstance(n, ast.BinOp)
    a, b = expr(n.left), expr(n.right)
    if isinstance(n.op, ast.Sub):
        b = f'(neg {b})'
    else:
        assert isinstance(n.op, ast.Add)
    return f'(EAdd [{a}; {b}])'


def flat(n, rank):
    if rank == 0:
        return [expr(n)]
    assert isinstance(n, ast.List) and len(n.elts) == 3
    return [e for m in n.elts for e in flat(m, rank - 1)]


tables = {'dipole': [], 'surface': [], 'quadrupole': []}
ranks = {'dipole': 3, 'surface': 3, 'quadrupole': 4}
for node in ast.parse(open('/repo/shgpy/tensor_definitions.py').read()).body:
    if not isinstance(node, ast.Assign):
        continue
    t = node.targets[0]
    if isinstance(t, ast.Subscript):
        which, key = t.value.id, t.slice.value
        assert ast.unparse(node.value.func) == 'np.array'
        assert [k.arg for k in node.value.keywords] == ['dtype']
        assert ast.unparse(node.value.keywords[0].value) == 'object'
        assert key not in [k for k, _, _, _ in tables[which]]
        tables[which].append((key, node.lineno, node.end_lineno,
                              flat(node.value.args[0], ranks[which])))

out = ['''(** The tables of shgpy/tensor_definitions.py, written by tools/gen_tensors.py
    from the text of that file and of shg_symbols.py.

    A table is a list of names and entries in row-major order, in the order in
    which the file assigns them (each name is assigned once).  The loops at
    lines 106-110, 145-149 and 210-214 pass every entry through [sp.sympify],
    which turns the integer 0 into sympy's 0 and leaves symbols and sums alone.
    [a - b] is the sum of [a] and [-b]; [-b] is the product of -1 and [b]. *)
From Coq Require Import String List QArith.
Import ListNotations.
From Verif Require Import PyBase Expr TensorModel.
Local Open Scope string_scope.

(** shg_symbols.py: every parameter is [sp.symbols(name)], no assumptions. *)
Definition par (n : string) : expr := ESym (mksym n None).
Definition neg (e : expr) : expr := EMul [num (-1 # 1); e].
Definition nul : expr := num 0.

(** [np.array(..., dtype=object)] of [rank] nested lists of length 3. *)
Definition position (i : list nat) : nat := fold_left (fun a x => (3 * a + x)%nat) i 0%nat.
Definition table_tensor (rank : nat) (l : list expr) : tensor expr :=
  mkT (repeat 3%nat rank) (fun i => nth (position i) l nul).
''']
for which in tables:
    out.append(f'\nDefinition {which}_table : list (string * list expr) := [')
    rows = []
    for key, a, b, entries in tables[which]:
        body = ''
        line = '    '
        for k, e in enumerate(entries):
            e = e + (';' if k + 1 < len(entries) else '')
            if len(line) + len(e) > 100:
                body += line.rstrip() + '\n'
                line = '    '
            line += e + ' '
        body += line.rstrip()
        cite = f'line {a}' if a == b else f'lines {a}-{b}'
        rows.append(f'  (* {cite} *)\n  ("{key}", [\n{body}])')
    out.append(';\n'.join(rows))
    out.append('].')
out.append('''
(** [td.dipole[name]] and so on; a missing name is KeyError. *)
Definition lookup (table : list (string * list expr)) (rank : nat) (name : string) : res (tensor expr) :=
  match dget name table with
  | Some l => Ok (table_tensor rank l)
  | None => Raise KeyError
  end.
Definition dipole : string -> res (tensor expr) := lookup dipole_table 3.
Definition surface : string -> res (tensor expr) := lookup surface_table 3.
Definition quadrupole : string -> res (tensor expr) := lookup quadrupole_table 4.
''')
open(os.path.join(here, 'rocq/theories/TensorDefs.v'), 'w').write('\n'.join(out))
print({k: len(v) for k, v in tables.items()})
