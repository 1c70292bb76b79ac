(** The tables of shgpy/tensor_definitions.py, written by tools/gen_tensors.py
    from the text of that file and of shg_symbols.py.

    A table is a list of names and entries in row-major order, in the order in
    which the file assigns them (each name is assigned once).  The loops at
    lines 106-110, 145-149 and 210-214 pass every entry through [sp.sympify],
    which turns the integer 0 into sympy's 0 and leaves symbols and sums alone.
    [a - b] is the sum of [a] and [-b]; [-b] is the product of -1 and [b]. *)
From Coq Require Import String List QArith.
Import ListNotations.
From Verif Require Import PyBase Expr TensorModel.
Local Open Scope string_scope.

(** shg_symbols.py: every parameter is [sp.symbols(name)], no assumptions. *)
Definition par (n : string) : expr := ESym (mksym n None).
Definition neg (e : expr) : expr := EMul [num (-1 # 1); e].
Definition nul : expr := num 0.

(** [np.array(..., dtype=object)] of [rank] nested lists of length 3. *)
Definition position (i : list nat) : nat := fold_left (fun a x => (3 * a + x)%nat) i 0%nat.
Definition table_tensor (rank : nat) (l : list expr) : tensor expr :=
  mkT (repeat 3%nat rank) (fun i => nth (position i) l nul).


Definition dipole_table : list (string * list expr) := [
  (* line 74 *)
  ("S_2", [
    nul; nul; nul; nul; nul; nul; nul; nul; nul; nul; nul; nul; nul; nul; nul; nul; nul; nul; nul;
    nul; nul; nul; nul; nul; nul; nul; nul]);
  (* line 75 *)
  ("C_2h", [
    nul; nul; nul; nul; nul; nul; nul; nul; nul; nul; nul; nul; nul; nul; nul; nul; nul; nul; nul;
    nul; nul; nul; nul; nul; nul; nul; nul]);
  (* line 76 *)
  ("D_2h", [
    nul; nul; nul; nul; nul; nul; nul; nul; nul; nul; nul; nul; nul; nul; nul; nul; nul; nul; nul;
    nul; nul; nul; nul; nul; nul; nul; nul]);
  (* line 77 *)
  ("C_4h", [
    nul; nul; nul; nul; nul; nul; nul; nul; nul; nul; nul; nul; nul; nul; nul; nul; nul; nul; nul;
    nul; nul; nul; nul; nul; nul; nul; nul]);
  (* line 78 *)
  ("D_4h", [
    nul; nul; nul; nul; nul; nul; nul; nul; nul; nul; nul; nul; nul; nul; nul; nul; nul; nul; nul;
    nul; nul; nul; nul; nul; nul; nul; nul]);
  (* line 79 *)
  ("T_h", [
    nul; nul; nul; nul; nul; nul; nul; nul; nul; nul; nul; nul; nul; nul; nul; nul; nul; nul; nul;
    nul; nul; nul; nul; nul; nul; nul; nul]);
  (* line 80 *)
  ("O_h", [
    nul; nul; nul; nul; nul; nul; nul; nul; nul; nul; nul; nul; nul; nul; nul; nul; nul; nul; nul;
    nul; nul; nul; nul; nul; nul; nul; nul]);
  (* line 81 *)
  ("S_6", [
    nul; nul; nul; nul; nul; nul; nul; nul; nul; nul; nul; nul; nul; nul; nul; nul; nul; nul; nul;
    nul; nul; nul; nul; nul; nul; nul; nul]);
  (* line 82 *)
  ("D_3d", [
    nul; nul; nul; nul; nul; nul; nul; nul; nul; nul; nul; nul; nul; nul; nul; nul; nul; nul; nul;
    nul; nul; nul; nul; nul; nul; nul; nul]);
  (* line 83 *)
  ("C_6h", [
    nul; nul; nul; nul; nul; nul; nul; nul; nul; nul; nul; nul; nul; nul; nul; nul; nul; nul; nul;
    nul; nul; nul; nul; nul; nul; nul; nul]);
  (* line 84 *)
  ("D_6h", [
    nul; nul; nul; nul; nul; nul; nul; nul; nul; nul; nul; nul; nul; nul; nul; nul; nul; nul; nul;
    nul; nul; nul; nul; nul; nul; nul; nul]);
  (* line 85 *)
  ("C_2", [
    nul; (par "xxy"); nul; (par "xyx"); nul; (par "xyz"); nul; (par "xzy"); nul; (par "yxx"); nul;
    (par "yxz"); nul; (par "yyy"); nul; (par "yzx"); nul; (par "yzz"); nul; (par "zxy"); nul;
    (par "zyx"); nul; (par "zyz"); nul; (par "zzy"); nul]);
  (* line 86 *)
  ("C_1h", [
    (par "xxx"); nul; (par "xxz"); nul; (par "xyy"); nul; (par "xzx"); nul; (par "xzz"); nul;
    (par "yxy"); nul; (par "yyx"); nul; (par "yyz"); nul; (par "yzy"); nul; (par "zxx"); nul;
    (par "zxz"); nul; (par "zyy"); nul; (par "zzx"); nul; (par "zzz")]);
  (* line 87 *)
  ("D_2", [
    nul; nul; nul; nul; nul; (par "xyz"); nul; (par "xzy"); nul; nul; nul; (par "yxz"); nul; nul;
    nul; (par "yzx"); nul; nul; nul; (par "zxy"); nul; (par "zyx"); nul; nul; nul; nul; nul]);
  (* line 88 *)
  ("C_2v", [
    nul; nul; (par "xxz"); nul; nul; nul; (par "xzx"); nul; nul; nul; nul; nul; nul; nul;
    (par "yyz"); nul; (par "yzy"); nul; (par "zxx"); nul; nul; nul; (par "zyy"); nul; nul; nul;
    (par "zzz")]);
  (* line 89 *)
  ("C_4", [
    nul; nul; (par "yyz"); nul; nul; (neg (par "yxz")); (par "yzy"); (neg (par "yzx")); nul; nul;
    nul; (par "yxz"); nul; nul; (par "yyz"); (par "yzx"); (par "yzy"); nul; (par "zyy");
    (neg (par "zyx")); nul; (par "zyx"); (par "zyy"); nul; nul; nul; (par "zzz")]);
  (* line 90 *)
  ("S_4", [
    nul; nul; (neg (par "yyz")); nul; nul; (par "yxz"); (neg (par "yzy")); (par "yzx"); nul; nul;
    nul; (par "yxz"); nul; nul; (par "yyz"); (par "yzx"); (par "yzy"); nul; (neg (par "zyy"));
    (par "zyx"); nul; (par "zyx"); (par "zyy"); nul; nul; nul; nul]);
  (* line 91 *)
  ("D_4", [
    nul; nul; nul; nul; nul; (neg (par "yxz")); nul; (neg (par "yzx")); nul; nul; nul; (par "yxz");
    nul; nul; nul; (par "yzx"); nul; nul; nul; (neg (par "zyx")); nul; (par "zyx"); nul; nul; nul;
    nul; nul]);
  (* line 92 *)
  ("C_4v", [
    nul; nul; (par "yyz"); nul; nul; nul; (par "yzy"); nul; nul; nul; nul; nul; nul; nul;
    (par "yyz"); nul; (par "yzy"); nul; (par "zyy"); nul; nul; nul; (par "zyy"); nul; nul; nul;
    (par "zzz")]);
  (* line 93 *)
  ("D_2d", [
    nul; nul; nul; nul; nul; (par "yxz"); nul; (par "yzx"); nul; nul; nul; (par "yxz"); nul; nul;
    nul; (par "yzx"); nul; nul; nul; (par "zyx"); nul; (par "zyx"); nul; nul; nul; nul; nul]);
  (* line 94 *)
  ("O", [
    nul; nul; nul; nul; nul; (neg (par "zyx")); nul; (par "zyx"); nul; nul; nul; (par "zyx"); nul;
    nul; nul; (neg (par "zyx")); nul; nul; nul; (neg (par "zyx")); nul; (par "zyx"); nul; nul; nul;
    nul; nul]);
  (* line 95 *)
  ("T_d", [
    nul; nul; nul; nul; nul; (par "zyx"); nul; (par "zyx"); nul; nul; nul; (par "zyx"); nul; nul;
    nul; (par "zyx"); nul; nul; nul; (par "zyx"); nul; (par "zyx"); nul; nul; nul; nul; nul]);
  (* line 96 *)
  ("T", [
    nul; nul; nul; nul; nul; (par "zxy"); nul; (par "zyx"); nul; nul; nul; (par "zyx"); nul; nul;
    nul; (par "zxy"); nul; nul; nul; (par "zxy"); nul; (par "zyx"); nul; nul; nul; nul; nul]);
  (* line 97 *)
  ("D_3", [
    (neg (par "yxy")); nul; nul; nul; (par "yxy"); (neg (par "yxz")); nul; (neg (par "yzx")); nul;
    nul; (par "yxy"); (par "yxz"); (par "yxy"); nul; nul; (par "yzx"); nul; nul; nul;
    (neg (par "zyx")); nul; (par "zyx"); nul; nul; nul; nul; nul]);
  (* line 98 *)
  ("C_3", [
    (par "xxx"); (neg (par "yyy")); (par "yyz"); (neg (par "yyy")); (neg (par "xxx"));
    (neg (par "yxz")); (par "yzy"); (neg (par "yzx")); nul; (neg (par "yyy")); (neg (par "xxx"));
    (par "yxz"); (neg (par "xxx")); (par "yyy"); (par "yyz"); (par "yzx"); (par "yzy"); nul;
    (par "zyy"); (neg (par "zyx")); nul; (par "zyx"); (par "zyy"); nul; nul; nul; (par "zzz")]);
  (* line 99 *)
  ("C_3v", [
    nul; (par "xyx"); (par "yyz"); (par "xyx"); nul; nul; (par "yzy"); nul; nul; (par "xyx"); nul;
    nul; nul; (neg (par "xyx")); (par "yyz"); nul; (par "yzy"); nul; (par "zyy"); nul; nul; nul;
    (par "zyy"); nul; nul; nul; (par "zzz")]);
  (* line 100 *)
  ("C_6", [
    nul; nul; (par "yyz"); nul; nul; (neg (par "yxz")); (par "yzy"); (neg (par "yzx")); nul; nul;
    nul; (par "yxz"); nul; nul; (par "yyz"); (par "yzx"); (par "yzy"); nul; (par "zyy");
    (neg (par "zyx")); nul; (par "zyx"); (par "zyy"); nul; nul; nul; (par "zzz")]);
  (* line 101 *)
  ("C_3h", [
    (neg (par "yyx")); (par "xxy"); nul; (par "xxy"); (par "yyx"); nul; nul; nul; nul; (par "xxy");
    (par "yyx"); nul; (par "yyx"); (neg (par "xxy")); nul; nul; nul; nul; nul; nul; nul; nul; nul;
    nul; nul; nul; nul]);
  (* line 102 *)
  ("C_6v", [
    nul; nul; (par "yyz"); nul; nul; nul; (par "yzy"); nul; nul; nul; nul; nul; nul; nul;
    (par "yyz"); nul; (par "yzy"); nul; (par "zyy"); nul; nul; nul; (par "zyy"); nul; nul; nul;
    (par "zzz")]);
  (* line 103 *)
  ("D_6", [
    nul; nul; nul; nul; nul; (neg (par "yxz")); nul; (neg (par "yzx")); nul; nul; nul; (par "yxz");
    nul; nul; nul; (par "yzx"); nul; nul; nul; (neg (par "zyx")); nul; (par "zyx"); nul; nul; nul;
    nul; nul]);
  (* line 104 *)
  ("D_3h", [
    nul; (par "xyx"); nul; (par "xyx"); nul; nul; nul; nul; nul; (par "xyx"); nul; nul; nul;
    (neg (par "xyx")); nul; nul; nul; nul; nul; nul; nul; nul; nul; nul; nul; nul; nul]);
  (* line 105 *)
  ("C_1", [
    (par "xxx"); (par "xxy"); (par "xxz"); (par "xyx"); (par "xyy"); (par "xyz"); (par "xzx");
    (par "xzy"); (par "xzz"); (par "yxx"); (par "yxy"); (par "yxz"); (par "yyx"); (par "yyy");
    (par "yyz"); (par "yzx"); (par "yzy"); (par "yzz"); (par "zxx"); (par "zxy"); (par "zxz");
    (par "zyx"); (par "zyy"); (par "zyz"); (par "zzx"); (par "zzy"); (par "zzz")])
].

Definition surface_table : list (string * list expr) := [
  (* line 113 *)
  ("S_2", [
    nul; nul; nul; nul; nul; nul; nul; nul; nul; nul; nul; nul; nul; nul; nul; nul; nul; nul; nul;
    nul; nul; nul; nul; nul; nul; nul; nul]);
  (* line 114 *)
  ("C_2h", [
    nul; nul; nul; nul; nul; nul; nul; nul; nul; nul; nul; nul; nul; nul; nul; nul; nul; nul; nul;
    nul; nul; nul; nul; nul; nul; nul; nul]);
  (* line 115 *)
  ("D_2h", [
    nul; nul; nul; nul; nul; nul; nul; nul; nul; nul; nul; nul; nul; nul; nul; nul; nul; nul; nul;
    nul; nul; nul; nul; nul; nul; nul; nul]);
  (* line 116 *)
  ("C_4h", [
    nul; nul; nul; nul; nul; nul; nul; nul; nul; nul; nul; nul; nul; nul; nul; nul; nul; nul; nul;
    nul; nul; nul; nul; nul; nul; nul; nul]);
  (* line 117 *)
  ("D_4h", [
    nul; nul; nul; nul; nul; nul; nul; nul; nul; nul; nul; nul; nul; nul; nul; nul; nul; nul; nul;
    nul; nul; nul; nul; nul; nul; nul; nul]);
  (* line 118 *)
  ("T_h", [
    nul; nul; nul; nul; nul; nul; nul; nul; nul; nul; nul; nul; nul; nul; nul; nul; nul; nul; nul;
    nul; nul; nul; nul; nul; nul; nul; nul]);
  (* line 119 *)
  ("O_h", [
    nul; nul; nul; nul; nul; nul; nul; nul; nul; nul; nul; nul; nul; nul; nul; nul; nul; nul; nul;
    nul; nul; nul; nul; nul; nul; nul; nul]);
  (* line 120 *)
  ("S_6", [
    nul; nul; nul; nul; nul; nul; nul; nul; nul; nul; nul; nul; nul; nul; nul; nul; nul; nul; nul;
    nul; nul; nul; nul; nul; nul; nul; nul]);
  (* line 121 *)
  ("D_3d", [
    nul; nul; nul; nul; nul; nul; nul; nul; nul; nul; nul; nul; nul; nul; nul; nul; nul; nul; nul;
    nul; nul; nul; nul; nul; nul; nul; nul]);
  (* line 122 *)
  ("C_6h", [
    nul; nul; nul; nul; nul; nul; nul; nul; nul; nul; nul; nul; nul; nul; nul; nul; nul; nul; nul;
    nul; nul; nul; nul; nul; nul; nul; nul]);
  (* line 123 *)
  ("D_6h", [
    nul; nul; nul; nul; nul; nul; nul; nul; nul; nul; nul; nul; nul; nul; nul; nul; nul; nul; nul;
    nul; nul; nul; nul; nul; nul; nul; nul]);
  (* line 124 *)
  ("C_2", [
    nul; (par "sxxy"); nul; (par "sxyx"); nul; (par "sxyz"); nul; (par "sxzy"); nul; (par "syxx");
    nul; (par "syxz"); nul; (par "syyy"); nul; (par "syzx"); nul; (par "syzz"); nul; (par "szxy");
    nul; (par "szyx"); nul; (par "szyz"); nul; (par "szzy"); nul]);
  (* line 125 *)
  ("C_1h", [
    (par "sxxx"); nul; (par "sxxz"); nul; (par "sxyy"); nul; (par "sxzx"); nul; (par "sxzz"); nul;
    (par "syxy"); nul; (par "syyx"); nul; (par "syyz"); nul; (par "syzy"); nul; (par "szxx"); nul;
    (par "szxz"); nul; (par "szyy"); nul; (par "szzx"); nul; (par "szzz")]);
  (* line 126 *)
  ("D_2", [
    nul; nul; nul; nul; nul; (par "sxyz"); nul; (par "sxzy"); nul; nul; nul; (par "syxz"); nul; nul;
    nul; (par "syzx"); nul; nul; nul; (par "szxy"); nul; (par "szyx"); nul; nul; nul; nul; nul]);
  (* line 127 *)
  ("C_2v", [
    nul; nul; (par "sxxz"); nul; nul; nul; (par "sxzx"); nul; nul; nul; nul; nul; nul; nul;
    (par "syyz"); nul; (par "syzy"); nul; (par "szxx"); nul; nul; nul; (par "szyy"); nul; nul; nul;
    (par "szzz")]);
  (* line 128 *)
  ("C_4", [
    nul; nul; (par "syyz"); nul; nul; (neg (par "syxz")); (par "syzy"); (neg (par "syzx")); nul;
    nul; nul; (par "syxz"); nul; nul; (par "syyz"); (par "syzx"); (par "syzy"); nul; (par "szyy");
    (neg (par "szyx")); nul; (par "szyx"); (par "szyy"); nul; nul; nul; (par "szzz")]);
  (* line 129 *)
  ("S_4", [
    nul; nul; (neg (par "syyz")); nul; nul; (par "syxz"); (neg (par "syzy")); (par "syzx"); nul;
    nul; nul; (par "syxz"); nul; nul; (par "syyz"); (par "syzx"); (par "syzy"); nul;
    (neg (par "szyy")); (par "szyx"); nul; (par "szyx"); (par "szyy"); nul; nul; nul; nul]);
  (* line 130 *)
  ("D_4", [
    nul; nul; nul; nul; nul; (neg (par "syxz")); nul; (neg (par "syzx")); nul; nul; nul;
    (par "syxz"); nul; nul; nul; (par "syzx"); nul; nul; nul; (neg (par "szyx")); nul; (par "szyx");
    nul; nul; nul; nul; nul]);
  (* line 131 *)
  ("C_4v", [
    nul; nul; (par "syyz"); nul; nul; nul; (par "syzy"); nul; nul; nul; nul; nul; nul; nul;
    (par "syyz"); nul; (par "syzy"); nul; (par "szyy"); nul; nul; nul; (par "szyy"); nul; nul; nul;
    (par "szzz")]);
  (* line 132 *)
  ("D_2d", [
    nul; nul; nul; nul; nul; (par "syxz"); nul; (par "syzx"); nul; nul; nul; (par "syxz"); nul; nul;
    nul; (par "syzx"); nul; nul; nul; (par "szyx"); nul; (par "szyx"); nul; nul; nul; nul; nul]);
  (* line 133 *)
  ("O", [
    nul; nul; nul; nul; nul; (neg (par "szyx")); nul; (par "szyx"); nul; nul; nul; (par "szyx");
    nul; nul; nul; (neg (par "szyx")); nul; nul; nul; (neg (par "szyx")); nul; (par "szyx"); nul;
    nul; nul; nul; nul]);
  (* line 134 *)
  ("T_d", [
    nul; nul; nul; nul; nul; (par "szyx"); nul; (par "szyx"); nul; nul; nul; (par "szyx"); nul; nul;
    nul; (par "szyx"); nul; nul; nul; (par "szyx"); nul; (par "szyx"); nul; nul; nul; nul; nul]);
  (* line 135 *)
  ("T", [
    nul; nul; nul; nul; nul; (par "szxy"); nul; (par "szyx"); nul; nul; nul; (par "szyx"); nul; nul;
    nul; (par "szxy"); nul; nul; nul; (par "szxy"); nul; (par "szyx"); nul; nul; nul; nul; nul]);
  (* line 136 *)
  ("D_3", [
    (neg (par "syxy")); nul; nul; nul; (par "syxy"); (neg (par "syxz")); nul; (neg (par "syzx"));
    nul; nul; (par "syxy"); (par "syxz"); (par "syxy"); nul; nul; (par "syzx"); nul; nul; nul;
    (neg (par "szyx")); nul; (par "szyx"); nul; nul; nul; nul; nul]);
  (* line 137 *)
  ("C_3", [
    (par "sxxx"); (neg (par "syyy")); (par "syyz"); (neg (par "syyy")); (neg (par "sxxx"));
    (neg (par "syxz")); (par "syzy"); (neg (par "syzx")); nul; (neg (par "syyy"));
    (neg (par "sxxx")); (par "syxz"); (neg (par "sxxx")); (par "syyy"); (par "syyz"); (par "syzx");
    (par "syzy"); nul; (par "szyy"); (neg (par "szyx")); nul; (par "szyx"); (par "szyy"); nul; nul;
    nul; (par "szzz")]);
  (* line 138 *)
  ("C_3v", [
    nul; (par "sxyx"); (par "syyz"); (par "sxyx"); nul; nul; (par "syzy"); nul; nul; (par "sxyx");
    nul; nul; nul; (neg (par "sxyx")); (par "syyz"); nul; (par "syzy"); nul; (par "szyy"); nul; nul;
    nul; (par "szyy"); nul; nul; nul; (par "szzz")]);
  (* line 139 *)
  ("C_6", [
    nul; nul; (par "syyz"); nul; nul; (neg (par "syxz")); (par "syzy"); (neg (par "syzx")); nul;
    nul; nul; (par "syxz"); nul; nul; (par "syyz"); (par "syzx"); (par "syzy"); nul; (par "szyy");
    (neg (par "szyx")); nul; (par "szyx"); (par "szyy"); nul; nul; nul; (par "szzz")]);
  (* line 140 *)
  ("C_3h", [
    (neg (par "syyx")); (par "sxxy"); nul; (par "sxxy"); (par "syyx"); nul; nul; nul; nul;
    (par "sxxy"); (par "syyx"); nul; (par "syyx"); (neg (par "sxxy")); nul; nul; nul; nul; nul; nul;
    nul; nul; nul; nul; nul; nul; nul]);
  (* line 141 *)
  ("D_6", [
    nul; nul; nul; nul; nul; (neg (par "syxz")); nul; (neg (par "syzx")); nul; nul; nul;
    (par "syxz"); nul; nul; nul; (par "syzx"); nul; nul; nul; (neg (par "szyx")); nul; (par "szyx");
    nul; nul; nul; nul; nul]);
  (* line 142 *)
  ("C_6v", [
    nul; nul; (par "syyz"); nul; nul; nul; (par "syzy"); nul; nul; nul; nul; nul; nul; nul;
    (par "syyz"); nul; (par "syzy"); nul; (par "szyy"); nul; nul; nul; (par "szyy"); nul; nul; nul;
    (par "szzz")]);
  (* line 143 *)
  ("D_3h", [
    nul; (par "sxyx"); nul; (par "sxyx"); nul; nul; nul; nul; nul; (par "sxyx"); nul; nul; nul;
    (neg (par "sxyx")); nul; nul; nul; nul; nul; nul; nul; nul; nul; nul; nul; nul; nul]);
  (* line 144 *)
  ("C_1", [
    (par "sxxx"); (par "sxxy"); (par "sxxz"); (par "sxyx"); (par "sxyy"); (par "sxyz");
    (par "sxzx"); (par "sxzy"); (par "sxzz"); (par "syxx"); (par "syxy"); (par "syxz");
    (par "syyx"); (par "syyy"); (par "syyz"); (par "syzx"); (par "syzy"); (par "syzz");
    (par "szxx"); (par "szxy"); (par "szxz"); (par "szyx"); (par "szyy"); (par "szyz");
    (par "szzx"); (par "szzy"); (par "szzz")])
].

Definition quadrupole_table : list (string * list expr) := [
  (* line 152 *)
  ("Isotropic", [
    (EAdd [(EAdd [(par "yxxy"); (par "yxyx")]); (par "yyxx")]); nul; nul; nul; (par "yyxx"); nul;
    nul; nul; (par "yyxx"); nul; (par "yxyx"); nul; (par "yxxy"); nul; nul; nul; nul; nul; nul; nul;
    (par "yxyx"); nul; nul; nul; (par "yxxy"); nul; nul; nul; (par "yxxy"); nul; (par "yxyx"); nul;
    nul; nul; nul; nul; (par "yyxx"); nul; nul; nul;
    (EAdd [(EAdd [(par "yxxy"); (par "yxyx")]); (par "yyxx")]); nul; nul; nul; (par "yyxx"); nul;
    nul; nul; nul; nul; (par "yxyx"); nul; (par "yxxy"); nul; nul; nul; (par "yxxy"); nul; nul; nul;
    (par "yxyx"); nul; nul; nul; nul; nul; nul; nul; (par "yxxy"); nul; (par "yxyx"); nul;
    (par "yyxx"); nul; nul; nul; (par "yyxx"); nul; nul; nul;
    (EAdd [(EAdd [(par "yxxy"); (par "yxyx")]); (par "yyxx")])]);
  (* line 153 *)
  ("T", [
    (par "zzzz"); nul; nul; nul; (par "xxyy"); nul; nul; nul; (par "yyxx"); nul; (par "xyxy"); nul;
    (par "xyyx"); nul; nul; nul; nul; nul; nul; nul; (par "yxyx"); nul; nul; nul; (par "yxxy"); nul;
    nul; nul; (par "yxxy"); nul; (par "yxyx"); nul; nul; nul; nul; nul; (par "yyxx"); nul; nul; nul;
    (par "zzzz"); nul; nul; nul; (par "xxyy"); nul; nul; nul; nul; nul; (par "xyxy"); nul;
    (par "xyyx"); nul; nul; nul; (par "xyyx"); nul; nul; nul; (par "xyxy"); nul; nul; nul; nul; nul;
    nul; nul; (par "yxxy"); nul; (par "yxyx"); nul; (par "xxyy"); nul; nul; nul; (par "yyxx"); nul;
    nul; nul; (par "zzzz")]);
  (* line 154 *)
  ("T_h", [
    (par "zzzz"); nul; nul; nul; (par "xxyy"); nul; nul; nul; (par "yyxx"); nul; (par "xyxy"); nul;
    (par "xyyx"); nul; nul; nul; nul; nul; nul; nul; (par "yxyx"); nul; nul; nul; (par "yxxy"); nul;
    nul; nul; (par "yxxy"); nul; (par "yxyx"); nul; nul; nul; nul; nul; (par "yyxx"); nul; nul; nul;
    (par "zzzz"); nul; nul; nul; (par "xxyy"); nul; nul; nul; nul; nul; (par "xyxy"); nul;
    (par "xyyx"); nul; nul; nul; (par "xyyx"); nul; nul; nul; (par "xyxy"); nul; nul; nul; nul; nul;
    nul; nul; (par "yxxy"); nul; (par "yxyx"); nul; (par "xxyy"); nul; nul; nul; (par "yyxx"); nul;
    nul; nul; (par "zzzz")]);
  (* line 155 *)
  ("O_h", [
    (par "zzzz"); nul; nul; nul; (par "yyxx"); nul; nul; nul; (par "yyxx"); nul; (par "yxyx"); nul;
    (par "yxxy"); nul; nul; nul; nul; nul; nul; nul; (par "yxyx"); nul; nul; nul; (par "yxxy"); nul;
    nul; nul; (par "yxxy"); nul; (par "yxyx"); nul; nul; nul; nul; nul; (par "yyxx"); nul; nul; nul;
    (par "zzzz"); nul; nul; nul; (par "yyxx"); nul; nul; nul; nul; nul; (par "yxyx"); nul;
    (par "yxxy"); nul; nul; nul; (par "yxxy"); nul; nul; nul; (par "yxyx"); nul; nul; nul; nul; nul;
    nul; nul; (par "yxxy"); nul; (par "yxyx"); nul; (par "yyxx"); nul; nul; nul; (par "yyxx"); nul;
    nul; nul; (par "zzzz")]);
  (* line 156 *)
  ("O", [
    (par "zzzz"); nul; nul; nul; (par "yyxx"); nul; nul; nul; (par "yyxx"); nul; (par "yxyx"); nul;
    (par "yxxy"); nul; nul; nul; nul; nul; nul; nul; (par "yxyx"); nul; nul; nul; (par "yxxy"); nul;
    nul; nul; (par "yxxy"); nul; (par "yxyx"); nul; nul; nul; nul; nul; (par "yyxx"); nul; nul; nul;
    (par "zzzz"); nul; nul; nul; (par "yyxx"); nul; nul; nul; nul; nul; (par "yxyx"); nul;
    (par "yxxy"); nul; nul; nul; (par "yxxy"); nul; nul; nul; (par "yxyx"); nul; nul; nul; nul; nul;
    nul; nul; (par "yxxy"); nul; (par "yxyx"); nul; (par "yyxx"); nul; nul; nul; (par "yyxx"); nul;
    nul; nul; (par "zzzz")]);
  (* line 157 *)
  ("T_d", [
    (par "zzzz"); nul; nul; nul; (par "yyxx"); nul; nul; nul; (par "yyxx"); nul; (par "yxyx"); nul;
    (par "yxxy"); nul; nul; nul; nul; nul; nul; nul; (par "yxyx"); nul; nul; nul; (par "yxxy"); nul;
    nul; nul; (par "yxxy"); nul; (par "yxyx"); nul; nul; nul; nul; nul; (par "yyxx"); nul; nul; nul;
    (par "zzzz"); nul; nul; nul; (par "yyxx"); nul; nul; nul; nul; nul; (par "yxyx"); nul;
    (par "yxxy"); nul; nul; nul; (par "yxxy"); nul; nul; nul; (par "yxyx"); nul; nul; nul; nul; nul;
    nul; nul; (par "yxxy"); nul; (par "yxyx"); nul; (par "yyxx"); nul; nul; nul; (par "yyxx"); nul;
    nul; nul; (par "zzzz")]);
  (* line 158 *)
  ("C_6", [
    (EAdd [(EAdd [(par "yxxy"); (par "yxyx")]); (par "yyxx")]);
    (EAdd [(EAdd [(neg (par "xxyx")); (neg (par "xyxx"))]); (neg (par "yxxx"))]); nul; (par "xxyx");
    (par "yyxx"); nul; nul; nul; (par "xxzz"); (par "xyxx"); (par "yxyx"); nul; (par "yxxy");
    (neg (par "yxxx")); nul; nul; nul; (neg (par "yxzz")); nul; nul; (par "xzxz"); nul; nul;
    (neg (par "yzxz")); (par "xzzx"); (neg (par "yzzx")); nul; (par "yxxx"); (par "yxxy"); nul;
    (par "yxyx"); (neg (par "xyxx")); nul; nul; nul; (par "yxzz"); (par "yyxx"); (neg (par "xxyx"));
    nul; (EAdd [(EAdd [(par "xxyx"); (par "xyxx")]); (par "yxxx")]);
    (EAdd [(EAdd [(par "yxxy"); (par "yxyx")]); (par "yyxx")]); nul; nul; nul; (par "xxzz"); nul;
    nul; (par "yzxz"); nul; nul; (par "xzxz"); (par "yzzx"); (par "xzzx"); nul; nul; nul;
    (par "zxxz"); nul; nul; (neg (par "zyxz")); (par "zxzx"); (neg (par "zyzx")); nul; nul; nul;
    (par "zyxz"); nul; nul; (par "zxxz"); (par "zyzx"); (par "zxzx"); nul; (par "zzxx");
    (neg (par "zzyx")); nul; (par "zzyx"); (par "zzxx"); nul; nul; nul; (par "zzzz")]);
  (* line 159 *)
  ("C_3h", [
    (EAdd [(EAdd [(par "yxxy"); (par "yxyx")]); (par "yyxx")]);
    (EAdd [(EAdd [(neg (par "xxyx")); (neg (par "xyxx"))]); (neg (par "yxxx"))]); nul; (par "xxyx");
    (par "yyxx"); nul; nul; nul; (par "xxzz"); (par "xyxx"); (par "yxyx"); nul; (par "yxxy");
    (neg (par "yxxx")); nul; nul; nul; (neg (par "yxzz")); nul; nul; (par "xzxz"); nul; nul;
    (neg (par "yzxz")); (par "xzzx"); (neg (par "yzzx")); nul; (par "yxxx"); (par "yxxy"); nul;
    (par "yxyx"); (neg (par "xyxx")); nul; nul; nul; (par "yxzz"); (par "yyxx"); (neg (par "xxyx"));
    nul; (EAdd [(EAdd [(par "xxyx"); (par "xyxx")]); (par "yxxx")]);
    (EAdd [(EAdd [(par "yxxy"); (par "yxyx")]); (par "yyxx")]); nul; nul; nul; (par "xxzz"); nul;
    nul; (par "yzxz"); nul; nul; (par "xzxz"); (par "yzzx"); (par "xzzx"); nul; nul; nul;
    (par "zxxz"); nul; nul; (neg (par "zyxz")); (par "zxzx"); (neg (par "zyzx")); nul; nul; nul;
    (par "zyxz"); nul; nul; (par "zxxz"); (par "zyzx"); (par "zxzx"); nul; (par "zzxx");
    (neg (par "zzyx")); nul; (par "zzyx"); (par "zzxx"); nul; nul; nul; (par "zzzz")]);
  (* line 160 *)
  ("C_6h", [
    (EAdd [(EAdd [(par "yxxy"); (par "yxyx")]); (par "yyxx")]);
    (EAdd [(EAdd [(neg (par "xxyx")); (neg (par "xyxx"))]); (neg (par "yxxx"))]); nul; (par "xxyx");
    (par "yyxx"); nul; nul; nul; (par "xxzz"); (par "xyxx"); (par "yxyx"); nul; (par "yxxy");
    (neg (par "yxxx")); nul; nul; nul; (neg (par "yxzz")); nul; nul; (par "xzxz"); nul; nul;
    (neg (par "yzxz")); (par "xzzx"); (neg (par "yzzx")); nul; (par "yxxx"); (par "yxxy"); nul;
    (par "yxyx"); (neg (par "xyxx")); nul; nul; nul; (par "yxzz"); (par "yyxx"); (neg (par "xxyx"));
    nul; (EAdd [(EAdd [(par "xxyx"); (par "xyxx")]); (par "yxxx")]);
    (EAdd [(EAdd [(par "yxxy"); (par "yxyx")]); (par "yyxx")]); nul; nul; nul; (par "xxzz"); nul;
    nul; (par "yzxz"); nul; nul; (par "xzxz"); (par "yzzx"); (par "xzzx"); nul; nul; nul;
    (par "zxxz"); nul; nul; (neg (par "zyxz")); (par "zxzx"); (neg (par "zyzx")); nul; nul; nul;
    (par "zyxz"); nul; nul; (par "zxxz"); (par "zyzx"); (par "zxzx"); nul; (par "zzxx");
    (neg (par "zzyx")); nul; (par "zzyx"); (par "zzxx"); nul; nul; nul; (par "zzzz")]);
  (* line 161 *)
  ("C_6v", [
    (EAdd [(EAdd [(par "yxxy"); (par "yxyx")]); (par "yyxx")]); nul; nul; nul; (par "yyxx"); nul;
    nul; nul; (par "xxzz"); nul; (par "yxyx"); nul; (par "yxxy"); nul; nul; nul; nul; nul; nul; nul;
    (par "xzxz"); nul; nul; nul; (par "xzzx"); nul; nul; nul; (par "yxxy"); nul; (par "yxyx"); nul;
    nul; nul; nul; nul; (par "yyxx"); nul; nul; nul;
    (EAdd [(EAdd [(par "yxxy"); (par "yxyx")]); (par "yyxx")]); nul; nul; nul; (par "xxzz"); nul;
    nul; nul; nul; nul; (par "xzxz"); nul; (par "xzzx"); nul; nul; nul; (par "zxxz"); nul; nul; nul;
    (par "zxzx"); nul; nul; nul; nul; nul; nul; nul; (par "zxxz"); nul; (par "zxzx"); nul;
    (par "zzxx"); nul; nul; nul; (par "zzxx"); nul; nul; nul; (par "zzzz")]);
  (* line 162 *)
  ("D_6", [
    (EAdd [(EAdd [(par "yxxy"); (par "yxyx")]); (par "yyxx")]); nul; nul; nul; (par "yyxx"); nul;
    nul; nul; (par "xxzz"); nul; (par "yxyx"); nul; (par "yxxy"); nul; nul; nul; nul; nul; nul; nul;
    (par "xzxz"); nul; nul; nul; (par "xzzx"); nul; nul; nul; (par "yxxy"); nul; (par "yxyx"); nul;
    nul; nul; nul; nul; (par "yyxx"); nul; nul; nul;
    (EAdd [(EAdd [(par "yxxy"); (par "yxyx")]); (par "yyxx")]); nul; nul; nul; (par "xxzz"); nul;
    nul; nul; nul; nul; (par "xzxz"); nul; (par "xzzx"); nul; nul; nul; (par "zxxz"); nul; nul; nul;
    (par "zxzx"); nul; nul; nul; nul; nul; nul; nul; (par "zxxz"); nul; (par "zxzx"); nul;
    (par "zzxx"); nul; nul; nul; (par "zzxx"); nul; nul; nul; (par "zzzz")]);
  (* line 163 *)
  ("D_6h", [
    (EAdd [(EAdd [(par "yxxy"); (par "yxyx")]); (par "yyxx")]); nul; nul; nul; (par "yyxx"); nul;
    nul; nul; (par "xxzz"); nul; (par "yxyx"); nul; (par "yxxy"); nul; nul; nul; nul; nul; nul; nul;
    (par "xzxz"); nul; nul; nul; (par "xzzx"); nul; nul; nul; (par "yxxy"); nul; (par "yxyx"); nul;
    nul; nul; nul; nul; (par "yyxx"); nul; nul; nul;
    (EAdd [(EAdd [(par "yxxy"); (par "yxyx")]); (par "yyxx")]); nul; nul; nul; (par "xxzz"); nul;
    nul; nul; nul; nul; (par "xzxz"); nul; (par "xzzx"); nul; nul; nul; (par "zxxz"); nul; nul; nul;
    (par "zxzx"); nul; nul; nul; nul; nul; nul; nul; (par "zxxz"); nul; (par "zxzx"); nul;
    (par "zzxx"); nul; nul; nul; (par "zzxx"); nul; nul; nul; (par "zzzz")]);
  (* line 164 *)
  ("D_3h", [
    (EAdd [(EAdd [(par "yxxy"); (par "yxyx")]); (par "yyxx")]); nul; nul; nul; (par "yyxx"); nul;
    nul; nul; (par "xxzz"); nul; (par "yxyx"); nul; (par "yxxy"); nul; nul; nul; nul; nul; nul; nul;
    (par "xzxz"); nul; nul; nul; (par "xzzx"); nul; nul; nul; (par "yxxy"); nul; (par "yxyx"); nul;
    nul; nul; nul; nul; (par "yyxx"); nul; nul; nul;
    (EAdd [(EAdd [(par "yxxy"); (par "yxyx")]); (par "yyxx")]); nul; nul; nul; (par "xxzz"); nul;
    nul; nul; nul; nul; (par "xzxz"); nul; (par "xzzx"); nul; nul; nul; (par "zxxz"); nul; nul; nul;
    (par "zxzx"); nul; nul; nul; nul; nul; nul; nul; (par "zxxz"); nul; (par "zxzx"); nul;
    (par "zzxx"); nul; nul; nul; (par "zzxx"); nul; nul; nul; (par "zzzz")]);
  (* line 165 *)
  ("C_3", [
    (EAdd [(EAdd [(par "yxxy"); (par "yxyx")]); (par "yyxx")]);
    (EAdd [(EAdd [(neg (par "xxyx")); (neg (par "xyxx"))]); (neg (par "yxxx"))]);
    (neg (par "yyxz")); (par "xxyx"); (par "yyxx"); (par "xxyz"); (neg (par "yyzx")); (par "xxzy");
    (par "xxzz"); (par "xyxx"); (par "yxyx"); (par "xxyz"); (par "yxxy"); (neg (par "yxxx"));
    (par "yyxz"); (par "xxzy"); (par "yyzx"); (neg (par "yxzz")); (neg (par "xzyy")); (par "xzxy");
    (par "xzxz"); (par "xzxy"); (par "xzyy"); (neg (par "yzxz")); (par "xzzx"); (neg (par "yzzx"));
    nul; (par "yxxx"); (par "yxxy"); (par "xxyz"); (par "yxyx"); (neg (par "xyxx")); (par "yyxz");
    (par "xxzy"); (par "yyzx"); (par "yxzz"); (par "yyxx"); (neg (par "xxyx")); (par "yyxz");
    (EAdd [(EAdd [(par "xxyx"); (par "xyxx")]); (par "yxxx")]);
    (EAdd [(EAdd [(par "yxxy"); (par "yxyx")]); (par "yyxx")]); (neg (par "xxyz")); (par "yyzx");
    (neg (par "xxzy")); (par "xxzz"); (par "xzxy"); (par "xzyy"); (par "yzxz"); (par "xzyy");
    (neg (par "xzxy")); (par "xzxz"); (par "yzzx"); (par "xzzx"); nul; (neg (par "zyyx"));
    (par "zxxy"); (par "zxxz"); (par "zxxy"); (par "zyyx"); (neg (par "zyxz")); (par "zxzx");
    (neg (par "zyzx")); nul; (par "zxxy"); (par "zyyx"); (par "zyxz"); (par "zyyx");
    (neg (par "zxxy")); (par "zxxz"); (par "zyzx"); (par "zxzx"); nul; (par "zzxx");
    (neg (par "zzyx")); nul; (par "zzyx"); (par "zzxx"); nul; nul; nul; (par "zzzz")]);
  (* line 166 *)
  ("S_6", [
    (EAdd [(EAdd [(par "yxxy"); (par "yxyx")]); (par "yyxx")]);
    (EAdd [(EAdd [(neg (par "xxyx")); (neg (par "xyxx"))]); (neg (par "yxxx"))]);
    (neg (par "yyxz")); (par "xxyx"); (par "yyxx"); (par "xxyz"); (neg (par "yyzx")); (par "xxzy");
    (par "xxzz"); (par "xyxx"); (par "yxyx"); (par "xxyz"); (par "yxxy"); (neg (par "yxxx"));
    (par "yyxz"); (par "xxzy"); (par "yyzx"); (neg (par "yxzz")); (neg (par "xzyy")); (par "xzxy");
    (par "xzxz"); (par "xzxy"); (par "xzyy"); (neg (par "yzxz")); (par "xzzx"); (neg (par "yzzx"));
    nul; (par "yxxx"); (par "yxxy"); (par "xxyz"); (par "yxyx"); (neg (par "xyxx")); (par "yyxz");
    (par "xxzy"); (par "yyzx"); (par "yxzz"); (par "yyxx"); (neg (par "xxyx")); (par "yyxz");
    (EAdd [(EAdd [(par "xxyx"); (par "xyxx")]); (par "yxxx")]);
    (EAdd [(EAdd [(par "yxxy"); (par "yxyx")]); (par "yyxx")]); (neg (par "xxyz")); (par "yyzx");
    (neg (par "xxzy")); (par "xxzz"); (par "xzxy"); (par "xzyy"); (par "yzxz"); (par "xzyy");
    (neg (par "xzxy")); (par "xzxz"); (par "yzzx"); (par "xzzx"); nul; (neg (par "zyyx"));
    (par "zxxy"); (par "zxxz"); (par "zxxy"); (par "zyyx"); (neg (par "zyxz")); (par "zxzx");
    (neg (par "zyzx")); nul; (par "zxxy"); (par "zyyx"); (par "zyxz"); (par "zyyx");
    (neg (par "zxxy")); (par "zxxz"); (par "zyzx"); (par "zxzx"); nul; (par "zzxx");
    (neg (par "zzyx")); nul; (par "zzyx"); (par "zzxx"); nul; nul; nul; (par "zzzz")]);
  (* line 167 *)
  ("C_3v", [
    (EAdd [(EAdd [(par "yxxy"); (par "yxyx")]); (par "yyxx")]); nul; (neg (par "yyxz")); nul;
    (par "yyxx"); nul; (neg (par "yyzx")); nul; (par "xxzz"); nul; (par "yxyx"); nul; (par "yxxy");
    nul; (par "yyxz"); nul; (par "yyzx"); nul; (neg (par "yzyx")); nul; (par "xzxz"); nul;
    (par "yzyx"); nul; (par "xzzx"); nul; nul; nul; (par "yxxy"); nul; (par "yxyx"); nul;
    (par "yyxz"); nul; (par "yyzx"); nul; (par "yyxx"); nul; (par "yyxz"); nul;
    (EAdd [(EAdd [(par "yxxy"); (par "yxyx")]); (par "yyxx")]); nul; (par "yyzx"); nul;
    (par "xxzz"); nul; (par "yzyx"); nul; (par "yzyx"); nul; (par "xzxz"); nul; (par "xzzx"); nul;
    (neg (par "zyyx")); nul; (par "zxxz"); nul; (par "zyyx"); nul; (par "zxzx"); nul; nul; nul;
    (par "zyyx"); nul; (par "zyyx"); nul; (par "zxxz"); nul; (par "zxzx"); nul; (par "zzxx"); nul;
    nul; nul; (par "zzxx"); nul; nul; nul; (par "zzzz")]);
  (* line 168 *)
  ("D_3d", [
    (EAdd [(EAdd [(par "yxxy"); (par "yxyx")]); (par "yyxx")]); nul; (neg (par "yyxz")); nul;
    (par "yyxx"); nul; (neg (par "yyzx")); nul; (par "xxzz"); nul; (par "yxyx"); nul; (par "yxxy");
    nul; (par "yyxz"); nul; (par "yyzx"); nul; (neg (par "yzyx")); nul; (par "xzxz"); nul;
    (par "yzyx"); nul; (par "xzzx"); nul; nul; nul; (par "yxxy"); nul; (par "yxyx"); nul;
    (par "yyxz"); nul; (par "yyzx"); nul; (par "yyxx"); nul; (par "yyxz"); nul;
    (EAdd [(EAdd [(par "yxxy"); (par "yxyx")]); (par "yyxx")]); nul; (par "yyzx"); nul;
    (par "xxzz"); nul; (par "yzyx"); nul; (par "yzyx"); nul; (par "xzxz"); nul; (par "xzzx"); nul;
    (neg (par "zyyx")); nul; (par "zxxz"); nul; (par "zyyx"); nul; (par "zxzx"); nul; nul; nul;
    (par "zyyx"); nul; (par "zyyx"); nul; (par "zxxz"); nul; (par "zxzx"); nul; (par "zzxx"); nul;
    nul; nul; (par "zzxx"); nul; nul; nul; (par "zzzz")]);
  (* line 169 *)
  ("D_3", [
    (EAdd [(EAdd [(par "yxxy"); (par "yxyx")]); (par "yyxx")]); nul; (neg (par "yyxz")); nul;
    (par "yyxx"); nul; (neg (par "yyzx")); nul; (par "xxzz"); nul; (par "yxyx"); nul; (par "yxxy");
    nul; (par "yyxz"); nul; (par "yyzx"); nul; (neg (par "yzyx")); nul; (par "xzxz"); nul;
    (par "yzyx"); nul; (par "xzzx"); nul; nul; nul; (par "yxxy"); nul; (par "yxyx"); nul;
    (par "yyxz"); nul; (par "yyzx"); nul; (par "yyxx"); nul; (par "yyxz"); nul;
    (EAdd [(EAdd [(par "yxxy"); (par "yxyx")]); (par "yyxx")]); nul; (par "yyzx"); nul;
    (par "xxzz"); nul; (par "yzyx"); nul; (par "yzyx"); nul; (par "xzxz"); nul; (par "xzzx"); nul;
    (neg (par "zyyx")); nul; (par "zxxz"); nul; (par "zyyx"); nul; (par "zxzx"); nul; nul; nul;
    (par "zyyx"); nul; (par "zyyx"); nul; (par "zxxz"); nul; (par "zxzx"); nul; (par "zzxx"); nul;
    nul; nul; (par "zzxx"); nul; nul; nul; (par "zzzz")]);
  (* line 170 *)
  ("C_4", [
    (par "yyyy"); (neg (par "yyyx")); nul; (neg (par "yyxy")); (par "yyxx"); nul; nul; nul;
    (par "yyzz"); (neg (par "yxyy")); (par "yxyx"); nul; (par "yxxy"); (par "xyyy"); nul; nul; nul;
    (neg (par "yxzz")); nul; nul; (par "yzyz"); nul; nul; (neg (par "yzxz")); (par "yzzy");
    (neg (par "yzzx")); nul; (neg (par "xyyy")); (par "yxxy"); nul; (par "yxyx"); (par "yxyy"); nul;
    nul; nul; (par "yxzz"); (par "yyxx"); (par "yyxy"); nul; (par "yyyx"); (par "yyyy"); nul; nul;
    nul; (par "yyzz"); nul; nul; (par "yzxz"); nul; nul; (par "yzyz"); (par "yzzx"); (par "yzzy");
    nul; nul; nul; (par "zyyz"); nul; nul; (neg (par "zyxz")); (par "zyzy"); (neg (par "zyzx"));
    nul; nul; nul; (par "zyxz"); nul; nul; (par "zyyz"); (par "zyzx"); (par "zyzy"); nul;
    (par "zzyy"); (neg (par "zzyx")); nul; (par "zzyx"); (par "zzyy"); nul; nul; nul; (par "zzzz")]);
  (* line 171 *)
  ("C_4h", [
    (par "yyyy"); (neg (par "yyyx")); nul; (neg (par "yyxy")); (par "yyxx"); nul; nul; nul;
    (par "yyzz"); (neg (par "yxyy")); (par "yxyx"); nul; (par "yxxy"); (par "xyyy"); nul; nul; nul;
    (neg (par "yxzz")); nul; nul; (par "yzyz"); nul; nul; (neg (par "yzxz")); (par "yzzy");
    (neg (par "yzzx")); nul; (neg (par "xyyy")); (par "yxxy"); nul; (par "yxyx"); (par "yxyy"); nul;
    nul; nul; (par "yxzz"); (par "yyxx"); (par "yyxy"); nul; (par "yyyx"); (par "yyyy"); nul; nul;
    nul; (par "yyzz"); nul; nul; (par "yzxz"); nul; nul; (par "yzyz"); (par "yzzx"); (par "yzzy");
    nul; nul; nul; (par "zyyz"); nul; nul; (neg (par "zyxz")); (par "zyzy"); (neg (par "zyzx"));
    nul; nul; nul; (par "zyxz"); nul; nul; (par "zyyz"); (par "zyzx"); (par "zyzy"); nul;
    (par "zzyy"); (neg (par "zzyx")); nul; (par "zzyx"); (par "zzyy"); nul; nul; nul; (par "zzzz")]);
  (* line 172 *)
  ("S_4", [
    (par "yyyy"); (neg (par "yyyx")); nul; (neg (par "yyxy")); (par "yyxx"); nul; nul; nul;
    (par "yyzz"); (neg (par "yxyy")); (par "yxyx"); nul; (par "yxxy"); (par "xyyy"); nul; nul; nul;
    (neg (par "yxzz")); nul; nul; (par "yzyz"); nul; nul; (neg (par "yzxz")); (par "yzzy");
    (neg (par "yzzx")); nul; (neg (par "xyyy")); (par "yxxy"); nul; (par "yxyx"); (par "yxyy"); nul;
    nul; nul; (par "yxzz"); (par "yyxx"); (par "yyxy"); nul; (par "yyyx"); (par "yyyy"); nul; nul;
    nul; (par "yyzz"); nul; nul; (par "yzxz"); nul; nul; (par "yzyz"); (par "yzzx"); (par "yzzy");
    nul; nul; nul; (par "zyyz"); nul; nul; (neg (par "zyxz")); (par "zyzy"); (neg (par "zyzx"));
    nul; nul; nul; (par "zyxz"); nul; nul; (par "zyyz"); (par "zyzx"); (par "zyzy"); nul;
    (par "zzyy"); (neg (par "zzyx")); nul; (par "zzyx"); (par "zzyy"); nul; nul; nul; (par "zzzz")]);
  (* line 173 *)
  ("C_4v", [
    (par "yyyy"); nul; nul; nul; (par "yyxx"); nul; nul; nul; (par "xxzz"); nul; (par "yxyx"); nul;
    (par "yxxy"); nul; nul; nul; nul; nul; nul; nul; (par "xzxz"); nul; nul; nul; (par "xzzx"); nul;
    nul; nul; (par "yxxy"); nul; (par "yxyx"); nul; nul; nul; nul; nul; (par "yyxx"); nul; nul; nul;
    (par "yyyy"); nul; nul; nul; (par "xxzz"); nul; nul; nul; nul; nul; (par "xzxz"); nul;
    (par "xzzx"); nul; nul; nul; (par "zxxz"); nul; nul; nul; (par "zxzx"); nul; nul; nul; nul; nul;
    nul; nul; (par "zxxz"); nul; (par "zxzx"); nul; (par "zzxx"); nul; nul; nul; (par "zzxx"); nul;
    nul; nul; (par "zzzz")]);
  (* line 174 *)
  ("D_4", [
    (par "yyyy"); nul; nul; nul; (par "yyxx"); nul; nul; nul; (par "xxzz"); nul; (par "yxyx"); nul;
    (par "yxxy"); nul; nul; nul; nul; nul; nul; nul; (par "xzxz"); nul; nul; nul; (par "xzzx"); nul;
    nul; nul; (par "yxxy"); nul; (par "yxyx"); nul; nul; nul; nul; nul; (par "yyxx"); nul; nul; nul;
    (par "yyyy"); nul; nul; nul; (par "xxzz"); nul; nul; nul; nul; nul; (par "xzxz"); nul;
    (par "xzzx"); nul; nul; nul; (par "zxxz"); nul; nul; nul; (par "zxzx"); nul; nul; nul; nul; nul;
    nul; nul; (par "zxxz"); nul; (par "zxzx"); nul; (par "zzxx"); nul; nul; nul; (par "zzxx"); nul;
    nul; nul; (par "zzzz")]);
  (* line 175 *)
  ("D_4h", [
    (par "yyyy"); nul; nul; nul; (par "yyxx"); nul; nul; nul; (par "xxzz"); nul; (par "yxyx"); nul;
    (par "yxxy"); nul; nul; nul; nul; nul; nul; nul; (par "xzxz"); nul; nul; nul; (par "xzzx"); nul;
    nul; nul; (par "yxxy"); nul; (par "yxyx"); nul; nul; nul; nul; nul; (par "yyxx"); nul; nul; nul;
    (par "yyyy"); nul; nul; nul; (par "xxzz"); nul; nul; nul; nul; nul; (par "xzxz"); nul;
    (par "xzzx"); nul; nul; nul; (par "zxxz"); nul; nul; nul; (par "zxzx"); nul; nul; nul; nul; nul;
    nul; nul; (par "zxxz"); nul; (par "zxzx"); nul; (par "zzxx"); nul; nul; nul; (par "zzxx"); nul;
    nul; nul; (par "zzzz")]);
  (* line 176 *)
  ("D_2d", [
    (par "yyyy"); nul; nul; nul; (par "yyxx"); nul; nul; nul; (par "xxzz"); nul; (par "yxyx"); nul;
    (par "yxxy"); nul; nul; nul; nul; nul; nul; nul; (par "xzxz"); nul; nul; nul; (par "xzzx"); nul;
    nul; nul; (par "yxxy"); nul; (par "yxyx"); nul; nul; nul; nul; nul; (par "yyxx"); nul; nul; nul;
    (par "yyyy"); nul; nul; nul; (par "xxzz"); nul; nul; nul; nul; nul; (par "xzxz"); nul;
    (par "xzzx"); nul; nul; nul; (par "zxxz"); nul; nul; nul; (par "zxzx"); nul; nul; nul; nul; nul;
    nul; nul; (par "zxxz"); nul; (par "zxzx"); nul; (par "zzxx"); nul; nul; nul; (par "zzxx"); nul;
    nul; nul; (par "zzzz")]);
  (* line 177 *)
  ("C_2", [
    (par "xxxx"); nul; (par "xxxz"); nul; (par "xxyy"); nul; (par "xxzx"); nul; (par "xxzz"); nul;
    (par "xyxy"); nul; (par "xyyx"); nul; (par "xyyz"); nul; (par "xyzy"); nul; (par "xzxx"); nul;
    (par "xzxz"); nul; (par "xzyy"); nul; (par "xzzx"); nul; (par "xzzz"); nul; (par "yxxy"); nul;
    (par "yxyx"); nul; (par "yxyz"); nul; (par "yxzy"); nul; (par "yyxx"); nul; (par "yyxz"); nul;
    (par "yyyy"); nul; (par "yyzx"); nul; (par "yyzz"); nul; (par "yzxy"); nul; (par "yzyx"); nul;
    (par "yzyz"); nul; (par "yzzy"); nul; (par "zxxx"); nul; (par "zxxz"); nul; (par "zxyy"); nul;
    (par "zxzx"); nul; (par "zxzz"); nul; (par "zyxy"); nul; (par "zyyx"); nul; (par "zyyz"); nul;
    (par "zyzy"); nul; (par "zzxx"); nul; (par "zzxz"); nul; (par "zzyy"); nul; (par "zzzx"); nul;
    (par "zzzz")]);
  (* line 178 *)
  ("C_1h", [
    (par "xxxx"); nul; (par "xxxz"); nul; (par "xxyy"); nul; (par "xxzx"); nul; (par "xxzz"); nul;
    (par "xyxy"); nul; (par "xyyx"); nul; (par "xyyz"); nul; (par "xyzy"); nul; (par "xzxx"); nul;
    (par "xzxz"); nul; (par "xzyy"); nul; (par "xzzx"); nul; (par "xzzz"); nul; (par "yxxy"); nul;
    (par "yxyx"); nul; (par "yxyz"); nul; (par "yxzy"); nul; (par "yyxx"); nul; (par "yyxz"); nul;
    (par "yyyy"); nul; (par "yyzx"); nul; (par "yyzz"); nul; (par "yzxy"); nul; (par "yzyx"); nul;
    (par "yzyz"); nul; (par "yzzy"); nul; (par "zxxx"); nul; (par "zxxz"); nul; (par "zxyy"); nul;
    (par "zxzx"); nul; (par "zxzz"); nul; (par "zyxy"); nul; (par "zyyx"); nul; (par "zyyz"); nul;
    (par "zyzy"); nul; (par "zzxx"); nul; (par "zzxz"); nul; (par "zzyy"); nul; (par "zzzx"); nul;
    (par "zzzz")]);
  (* line 179 *)
  ("C_2h", [
    (par "xxxx"); nul; (par "xxxz"); nul; (par "xxyy"); nul; (par "xxzx"); nul; (par "xxzz"); nul;
    (par "xyxy"); nul; (par "xyyx"); nul; (par "xyyz"); nul; (par "xyzy"); nul; (par "xzxx"); nul;
    (par "xzxz"); nul; (par "xzyy"); nul; (par "xzzx"); nul; (par "xzzz"); nul; (par "yxxy"); nul;
    (par "yxyx"); nul; (par "yxyz"); nul; (par "yxzy"); nul; (par "yyxx"); nul; (par "yyxz"); nul;
    (par "yyyy"); nul; (par "yyzx"); nul; (par "yyzz"); nul; (par "yzxy"); nul; (par "yzyx"); nul;
    (par "yzyz"); nul; (par "yzzy"); nul; (par "zxxx"); nul; (par "zxxz"); nul; (par "zxyy"); nul;
    (par "zxzx"); nul; (par "zxzz"); nul; (par "zyxy"); nul; (par "zyyx"); nul; (par "zyyz"); nul;
    (par "zyzy"); nul; (par "zzxx"); nul; (par "zzxz"); nul; (par "zzyy"); nul; (par "zzzx"); nul;
    (par "zzzz")]);
  (* line 180 *)
  ("C_2v", [
    (par "xxxx"); nul; nul; nul; (par "xxyy"); nul; nul; nul; (par "xxzz"); nul; (par "xyxy"); nul;
    (par "xyyx"); nul; nul; nul; nul; nul; nul; nul; (par "xzxz"); nul; nul; nul; (par "xzzx"); nul;
    nul; nul; (par "yxxy"); nul; (par "yxyx"); nul; nul; nul; nul; nul; (par "yyxx"); nul; nul; nul;
    (par "yyyy"); nul; nul; nul; (par "yyzz"); nul; nul; nul; nul; nul; (par "yzyz"); nul;
    (par "yzzy"); nul; nul; nul; (par "zxxz"); nul; nul; nul; (par "zxzx"); nul; nul; nul; nul; nul;
    nul; nul; (par "zyyz"); nul; (par "zyzy"); nul; (par "zzxx"); nul; nul; nul; (par "zzyy"); nul;
    nul; nul; (par "zzzz")]);
  (* line 181 *)
  ("D_2", [
    (par "xxxx"); nul; nul; nul; (par "xxyy"); nul; nul; nul; (par "xxzz"); nul; (par "xyxy"); nul;
    (par "xyyx"); nul; nul; nul; nul; nul; nul; nul; (par "xzxz"); nul; nul; nul; (par "xzzx"); nul;
    nul; nul; (par "yxxy"); nul; (par "yxyx"); nul; nul; nul; nul; nul; (par "yyxx"); nul; nul; nul;
    (par "yyyy"); nul; nul; nul; (par "yyzz"); nul; nul; nul; nul; nul; (par "yzyz"); nul;
    (par "yzzy"); nul; nul; nul; (par "zxxz"); nul; nul; nul; (par "zxzx"); nul; nul; nul; nul; nul;
    nul; nul; (par "zyyz"); nul; (par "zyzy"); nul; (par "zzxx"); nul; nul; nul; (par "zzyy"); nul;
    nul; nul; (par "zzzz")]);
  (* line 182 *)
  ("D_2h", [
    (par "xxxx"); nul; nul; nul; (par "xxyy"); nul; nul; nul; (par "xxzz"); nul; (par "xyxy"); nul;
    (par "xyyx"); nul; nul; nul; nul; nul; nul; nul; (par "xzxz"); nul; nul; nul; (par "xzzx"); nul;
    nul; nul; (par "yxxy"); nul; (par "yxyx"); nul; nul; nul; nul; nul; (par "yyxx"); nul; nul; nul;
    (par "yyyy"); nul; nul; nul; (par "yyzz"); nul; nul; nul; nul; nul; (par "yzyz"); nul;
    (par "yzzy"); nul; nul; nul; (par "zxxz"); nul; nul; nul; (par "zxzx"); nul; nul; nul; nul; nul;
    nul; nul; (par "zyyz"); nul; (par "zyzy"); nul; (par "zzxx"); nul; nul; nul; (par "zzyy"); nul;
    nul; nul; (par "zzzz")]);
  (* lines 183-209 *)
  ("C_1", [
    (par "xxxx"); (par "xxxy"); (par "xxxz"); (par "xxyx"); (par "xxyy"); (par "xxyz");
    (par "xxzx"); (par "xxzy"); (par "xxzz"); (par "xyxx"); (par "xyxy"); (par "xyxz");
    (par "xyyx"); (par "xyyy"); (par "xyyz"); (par "xyzx"); (par "xyzy"); (par "xyzz");
    (par "xzxx"); (par "xzxy"); (par "xzxz"); (par "xzyx"); (par "xzyy"); (par "xzyz");
    (par "xzzx"); (par "xzzy"); (par "xzzz"); (par "yxxx"); (par "yxxy"); (par "yxxz");
    (par "yxyx"); (par "yxyy"); (par "yxyz"); (par "yxzx"); (par "yxzy"); (par "yxzz");
    (par "yyxx"); (par "yyxy"); (par "yyxz"); (par "yyyx"); (par "yyyy"); (par "yyyz");
    (par "yyzx"); (par "yyzy"); (par "yyzz"); (par "yzxx"); (par "yzxy"); (par "yzxz");
    (par "yzyx"); (par "yzyy"); (par "yzyz"); (par "yzzx"); (par "yzzy"); (par "yzzz");
    (par "zxxx"); (par "zxxy"); (par "zxxz"); (par "zxyx"); (par "zxyy"); (par "zxyz");
    (par "zxzx"); (par "zxzy"); (par "zxzz"); (par "zyxx"); (par "zyxy"); (par "zyxz");
    (par "zyyx"); (par "zyyy"); (par "zyyz"); (par "zyzx"); (par "zyzy"); (par "zyzz");
    (par "zzxx"); (par "zzxy"); (par "zzxz"); (par "zzyx"); (par "zzyy"); (par "zzyz");
    (par "zzzx"); (par "zzzy"); (par "zzzz")])
].

(** [td.dipole[name]] and so on; a missing name is KeyError. *)
Definition lookup (table : list (string * list expr)) (rank : nat) (name : string) : res (tensor expr) :=
  match dget name table with
  | Some l => Ok (table_tensor rank l)
  | None => Raise KeyError
  end.
Definition dipole : string -> res (tensor expr) := lookup dipole_table 3.
Definition surface : string -> res (tensor expr) := lookup surface_table 3.
Definition quadrupole : string -> res (tensor expr) := lookup quadrupole_table 4.
