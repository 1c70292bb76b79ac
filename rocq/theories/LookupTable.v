(** The Fourier lookup table (shgpy/core/_lookup_table.py, whole file): for the
    code (c, s) of cos(phi)^c sin(phi)^s the list of 33 components, component n at
    position n + 16.  Generated by tools/gen_lookup.py from the text of the file;
    each decimal is the exact rational, [(a, b)] stands for a + b*I. *)
From Coq Require Import QArith List.
Import ListNotations.
Local Open Scope Q_scope.

Definition lookup_table : list ((nat * nat) * list (Q * Q)) :=
  [
    ((0, 0)%nat, [(0, 0); (0, 0); (0, 0); (0, 0); (0, 0); (0, 0); (0, 0); (0, 0); (0, 0); (0, 0); (0, 0);
      (0, 0); (0, 0); (0, 0); (0, 0); (0, 0); ((1#1), 0); (0, 0); (0, 0); (0, 0); (0, 0); (0, 0);
      (0, 0); (0, 0); (0, 0); (0, 0); (0, 0); (0, 0); (0, 0); (0, 0); (0, 0); (0, 0); (0, 0)]);
    ((0, 1)%nat, [(0, 0); (0, 0); (0, 0); (0, 0); (0, 0); (0, 0); (0, 0); (0, 0); (0, 0); (0, 0); (0, 0);
      (0, 0); (0, 0); (0, 0); (0, 0); (0, (1#2)); (0, 0); (0, (-1#2)); (0, 0); (0, 0); (0, 0); (0, 0);
      (0, 0); (0, 0); (0, 0); (0, 0); (0, 0); (0, 0); (0, 0); (0, 0); (0, 0); (0, 0); (0, 0)]);
    ((0, 2)%nat, [(0, 0); (0, 0); (0, 0); (0, 0); (0, 0); (0, 0); (0, 0); (0, 0); (0, 0); (0, 0); (0, 0);
      (0, 0); (0, 0); (0, 0); ((-1#4), 0); (0, 0); ((1#2), 0); (0, 0); ((-1#4), 0); (0, 0); (0, 0); (0, 0);
      (0, 0); (0, 0); (0, 0); (0, 0); (0, 0); (0, 0); (0, 0); (0, 0); (0, 0); (0, 0); (0, 0)]);
    ((0, 3)%nat, [(0, 0); (0, 0); (0, 0); (0, 0); (0, 0); (0, 0); (0, 0); (0, 0); (0, 0); (0, 0); (0, 0);
      (0, 0); (0, 0); (0, (-1#8)); (0, 0); (0, (3#8)); (0, 0); (0, (-3#8)); (0, 0); (0, (1#8)); (0, 0); (0, 0);
      (0, 0); (0, 0); (0, 0); (0, 0); (0, 0); (0, 0); (0, 0); (0, 0); (0, 0); (0, 0); (0, 0)]);
    ((0, 4)%nat, [(0, 0); (0, 0); (0, 0); (0, 0); (0, 0); (0, 0); (0, 0); (0, 0); (0, 0); (0, 0); (0, 0);
      (0, 0); ((1#16), 0); (0, 0); ((-1#4), 0); (0, 0); ((3#8), 0); (0, 0); ((-1#4), 0); (0, 0); ((1#16), 0); (0, 0);
      (0, 0); (0, 0); (0, 0); (0, 0); (0, 0); (0, 0); (0, 0); (0, 0); (0, 0); (0, 0); (0, 0)]);
    ((0, 5)%nat, [(0, 0); (0, 0); (0, 0); (0, 0); (0, 0); (0, 0); (0, 0); (0, 0); (0, 0); (0, 0); (0, 0);
      (0, (1#32)); (0, 0); (0, (-5#32)); (0, 0); (0, (5#16)); (0, 0); (0, (-5#16)); (0, 0); (0, (5#32)); (0, 0); (0, (-1#32));
      (0, 0); (0, 0); (0, 0); (0, 0); (0, 0); (0, 0); (0, 0); (0, 0); (0, 0); (0, 0); (0, 0)]);
    ((0, 6)%nat, [(0, 0); (0, 0); (0, 0); (0, 0); (0, 0); (0, 0); (0, 0); (0, 0); (0, 0); (0, 0); ((-1#64), 0);
      (0, 0); ((3#32), 0); (0, 0); ((-15#64), 0); (0, 0); ((5#16), 0); (0, 0); ((-15#64), 0); (0, 0); ((3#32), 0); (0, 0);
      ((-1#64), 0); (0, 0); (0, 0); (0, 0); (0, 0); (0, 0); (0, 0); (0, 0); (0, 0); (0, 0); (0, 0)]);
    ((0, 7)%nat, [(0, 0); (0, 0); (0, 0); (0, 0); (0, 0); (0, 0); (0, 0); (0, 0); (0, 0); (0, (-1#128)); (0, 0);
      (0, (7#128)); (0, 0); (0, (-21#128)); (0, 0); (0, (35#128)); (0, 0); (0, (-35#128)); (0, 0); (0, (21#128)); (0, 0); (0, (-7#128));
      (0, 0); (0, (1#128)); (0, 0); (0, 0); (0, 0); (0, 0); (0, 0); (0, 0); (0, 0); (0, 0); (0, 0)]);
    ((0, 8)%nat, [(0, 0); (0, 0); (0, 0); (0, 0); (0, 0); (0, 0); (0, 0); (0, 0); ((1#256), 0); (0, 0); ((-1#32), 0);
      (0, 0); ((7#64), 0); (0, 0); ((-7#32), 0); (0, 0); ((35#128), 0); (0, 0); ((-7#32), 0); (0, 0); ((7#64), 0); (0, 0);
      ((-1#32), 0); (0, 0); ((1#256), 0); (0, 0); (0, 0); (0, 0); (0, 0); (0, 0); (0, 0); (0, 0); (0, 0)]);
    ((1, 0)%nat, [(0, 0); (0, 0); (0, 0); (0, 0); (0, 0); (0, 0); (0, 0); (0, 0); (0, 0); (0, 0); (0, 0);
      (0, 0); (0, 0); (0, 0); (0, 0); ((1#2), 0); (0, 0); ((1#2), 0); (0, 0); (0, 0); (0, 0); (0, 0);
      (0, 0); (0, 0); (0, 0); (0, 0); (0, 0); (0, 0); (0, 0); (0, 0); (0, 0); (0, 0); (0, 0)]);
    ((1, 1)%nat, [(0, 0); (0, 0); (0, 0); (0, 0); (0, 0); (0, 0); (0, 0); (0, 0); (0, 0); (0, 0); (0, 0);
      (0, 0); (0, 0); (0, 0); (0, (1#4)); (0, 0); (0, 0); (0, 0); (0, (-1#4)); (0, 0); (0, 0); (0, 0);
      (0, 0); (0, 0); (0, 0); (0, 0); (0, 0); (0, 0); (0, 0); (0, 0); (0, 0); (0, 0); (0, 0)]);
    ((1, 2)%nat, [(0, 0); (0, 0); (0, 0); (0, 0); (0, 0); (0, 0); (0, 0); (0, 0); (0, 0); (0, 0); (0, 0);
      (0, 0); (0, 0); ((-1#8), 0); (0, 0); ((1#8), 0); (0, 0); ((1#8), 0); (0, 0); ((-1#8), 0); (0, 0); (0, 0);
      (0, 0); (0, 0); (0, 0); (0, 0); (0, 0); (0, 0); (0, 0); (0, 0); (0, 0); (0, 0); (0, 0)]);
    ((1, 3)%nat, [(0, 0); (0, 0); (0, 0); (0, 0); (0, 0); (0, 0); (0, 0); (0, 0); (0, 0); (0, 0); (0, 0);
      (0, 0); (0, (-1#16)); (0, 0); (0, (1#8)); (0, 0); (0, 0); (0, 0); (0, (-1#8)); (0, 0); (0, (1#16)); (0, 0);
      (0, 0); (0, 0); (0, 0); (0, 0); (0, 0); (0, 0); (0, 0); (0, 0); (0, 0); (0, 0); (0, 0)]);
    ((1, 4)%nat, [(0, 0); (0, 0); (0, 0); (0, 0); (0, 0); (0, 0); (0, 0); (0, 0); (0, 0); (0, 0); (0, 0);
      ((1#32), 0); (0, 0); ((-3#32), 0); (0, 0); ((1#16), 0); (0, 0); ((1#16), 0); (0, 0); ((-3#32), 0); (0, 0); ((1#32), 0);
      (0, 0); (0, 0); (0, 0); (0, 0); (0, 0); (0, 0); (0, 0); (0, 0); (0, 0); (0, 0); (0, 0)]);
    ((1, 5)%nat, [(0, 0); (0, 0); (0, 0); (0, 0); (0, 0); (0, 0); (0, 0); (0, 0); (0, 0); (0, 0); (0, (1#64));
      (0, 0); (0, (-1#16)); (0, 0); (0, (5#64)); (0, 0); (0, 0); (0, 0); (0, (-5#64)); (0, 0); (0, (1#16)); (0, 0);
      (0, (-1#64)); (0, 0); (0, 0); (0, 0); (0, 0); (0, 0); (0, 0); (0, 0); (0, 0); (0, 0); (0, 0)]);
    ((1, 6)%nat, [(0, 0); (0, 0); (0, 0); (0, 0); (0, 0); (0, 0); (0, 0); (0, 0); (0, 0); ((-1#128), 0); (0, 0);
      ((5#128), 0); (0, 0); ((-9#128), 0); (0, 0); ((5#128), 0); (0, 0); ((5#128), 0); (0, 0); ((-9#128), 0); (0, 0); ((5#128), 0);
      (0, 0); ((-1#128), 0); (0, 0); (0, 0); (0, 0); (0, 0); (0, 0); (0, 0); (0, 0); (0, 0); (0, 0)]);
    ((1, 7)%nat, [(0, 0); (0, 0); (0, 0); (0, 0); (0, 0); (0, 0); (0, 0); (0, 0); (0, (-1#256)); (0, 0); (0, (3#128));
      (0, 0); (0, (-7#128)); (0, 0); (0, (7#128)); (0, 0); (0, 0); (0, 0); (0, (-7#128)); (0, 0); (0, (7#128)); (0, 0);
      (0, (-3#128)); (0, 0); (0, (1#256)); (0, 0); (0, 0); (0, 0); (0, 0); (0, 0); (0, 0); (0, 0); (0, 0)]);
    ((2, 0)%nat, [(0, 0); (0, 0); (0, 0); (0, 0); (0, 0); (0, 0); (0, 0); (0, 0); (0, 0); (0, 0); (0, 0);
      (0, 0); (0, 0); (0, 0); ((1#4), 0); (0, 0); ((1#2), 0); (0, 0); ((1#4), 0); (0, 0); (0, 0); (0, 0);
      (0, 0); (0, 0); (0, 0); (0, 0); (0, 0); (0, 0); (0, 0); (0, 0); (0, 0); (0, 0); (0, 0)]);
    ((2, 1)%nat, [(0, 0); (0, 0); (0, 0); (0, 0); (0, 0); (0, 0); (0, 0); (0, 0); (0, 0); (0, 0); (0, 0);
      (0, 0); (0, 0); (0, (1#8)); (0, 0); (0, (1#8)); (0, 0); (0, (-1#8)); (0, 0); (0, (-1#8)); (0, 0); (0, 0);
      (0, 0); (0, 0); (0, 0); (0, 0); (0, 0); (0, 0); (0, 0); (0, 0); (0, 0); (0, 0); (0, 0)]);
    ((2, 2)%nat, [(0, 0); (0, 0); (0, 0); (0, 0); (0, 0); (0, 0); (0, 0); (0, 0); (0, 0); (0, 0); (0, 0);
      (0, 0); ((-1#16), 0); (0, 0); (0, 0); (0, 0); ((1#8), 0); (0, 0); (0, 0); (0, 0); ((-1#16), 0); (0, 0);
      (0, 0); (0, 0); (0, 0); (0, 0); (0, 0); (0, 0); (0, 0); (0, 0); (0, 0); (0, 0); (0, 0)]);
    ((2, 3)%nat, [(0, 0); (0, 0); (0, 0); (0, 0); (0, 0); (0, 0); (0, 0); (0, 0); (0, 0); (0, 0); (0, 0);
      (0, (-1#32)); (0, 0); (0, (1#32)); (0, 0); (0, (1#16)); (0, 0); (0, (-1#16)); (0, 0); (0, (-1#32)); (0, 0); (0, (1#32));
      (0, 0); (0, 0); (0, 0); (0, 0); (0, 0); (0, 0); (0, 0); (0, 0); (0, 0); (0, 0); (0, 0)]);
    ((2, 4)%nat, [(0, 0); (0, 0); (0, 0); (0, 0); (0, 0); (0, 0); (0, 0); (0, 0); (0, 0); (0, 0); ((1#64), 0);
      (0, 0); ((-1#32), 0); (0, 0); ((-1#64), 0); (0, 0); ((1#16), 0); (0, 0); ((-1#64), 0); (0, 0); ((-1#32), 0); (0, 0);
      ((1#64), 0); (0, 0); (0, 0); (0, 0); (0, 0); (0, 0); (0, 0); (0, 0); (0, 0); (0, 0); (0, 0)]);
    ((2, 5)%nat, [(0, 0); (0, 0); (0, 0); (0, 0); (0, 0); (0, 0); (0, 0); (0, 0); (0, 0); (0, (1#128)); (0, 0);
      (0, (-3#128)); (0, 0); (0, (1#128)); (0, 0); (0, (5#128)); (0, 0); (0, (-5#128)); (0, 0); (0, (-1#128)); (0, 0); (0, (3#128));
      (0, 0); (0, (-1#128)); (0, 0); (0, 0); (0, 0); (0, 0); (0, 0); (0, 0); (0, 0); (0, 0); (0, 0)]);
    ((2, 6)%nat, [(0, 0); (0, 0); (0, 0); (0, 0); (0, 0); (0, 0); (0, 0); (0, 0); ((-1#256), 0); (0, 0); ((1#64), 0);
      (0, 0); ((-1#64), 0); (0, 0); ((-1#64), 0); (0, 0); ((5#128), 0); (0, 0); ((-1#64), 0); (0, 0); ((-1#64), 0); (0, 0);
      ((1#64), 0); (0, 0); ((-1#256), 0); (0, 0); (0, 0); (0, 0); (0, 0); (0, 0); (0, 0); (0, 0); (0, 0)]);
    ((3, 0)%nat, [(0, 0); (0, 0); (0, 0); (0, 0); (0, 0); (0, 0); (0, 0); (0, 0); (0, 0); (0, 0); (0, 0);
      (0, 0); (0, 0); ((1#8), 0); (0, 0); ((3#8), 0); (0, 0); ((3#8), 0); (0, 0); ((1#8), 0); (0, 0); (0, 0);
      (0, 0); (0, 0); (0, 0); (0, 0); (0, 0); (0, 0); (0, 0); (0, 0); (0, 0); (0, 0); (0, 0)]);
    ((3, 1)%nat, [(0, 0); (0, 0); (0, 0); (0, 0); (0, 0); (0, 0); (0, 0); (0, 0); (0, 0); (0, 0); (0, 0);
      (0, 0); (0, (1#16)); (0, 0); (0, (1#8)); (0, 0); (0, 0); (0, 0); (0, (-1#8)); (0, 0); (0, (-1#16)); (0, 0);
      (0, 0); (0, 0); (0, 0); (0, 0); (0, 0); (0, 0); (0, 0); (0, 0); (0, 0); (0, 0); (0, 0)]);
    ((3, 2)%nat, [(0, 0); (0, 0); (0, 0); (0, 0); (0, 0); (0, 0); (0, 0); (0, 0); (0, 0); (0, 0); (0, 0);
      ((-1#32), 0); (0, 0); ((-1#32), 0); (0, 0); ((1#16), 0); (0, 0); ((1#16), 0); (0, 0); ((-1#32), 0); (0, 0); ((-1#32), 0);
      (0, 0); (0, 0); (0, 0); (0, 0); (0, 0); (0, 0); (0, 0); (0, 0); (0, 0); (0, 0); (0, 0)]);
    ((3, 3)%nat, [(0, 0); (0, 0); (0, 0); (0, 0); (0, 0); (0, 0); (0, 0); (0, 0); (0, 0); (0, 0); (0, (-1#64));
      (0, 0); (0, 0); (0, 0); (0, (3#64)); (0, 0); (0, 0); (0, 0); (0, (-3#64)); (0, 0); (0, 0); (0, 0);
      (0, (1#64)); (0, 0); (0, 0); (0, 0); (0, 0); (0, 0); (0, 0); (0, 0); (0, 0); (0, 0); (0, 0)]);
    ((3, 4)%nat, [(0, 0); (0, 0); (0, 0); (0, 0); (0, 0); (0, 0); (0, 0); (0, 0); (0, 0); ((1#128), 0); (0, 0);
      ((-1#128), 0); (0, 0); ((-3#128), 0); (0, 0); ((3#128), 0); (0, 0); ((3#128), 0); (0, 0); ((-3#128), 0); (0, 0); ((-1#128), 0);
      (0, 0); ((1#128), 0); (0, 0); (0, 0); (0, 0); (0, 0); (0, 0); (0, 0); (0, 0); (0, 0); (0, 0)]);
    ((3, 5)%nat, [(0, 0); (0, 0); (0, 0); (0, 0); (0, 0); (0, 0); (0, 0); (0, 0); (0, (1#256)); (0, 0); (0, (-1#128));
      (0, 0); (0, (-1#128)); (0, 0); (0, (3#128)); (0, 0); (0, 0); (0, 0); (0, (-3#128)); (0, 0); (0, (1#128)); (0, 0);
      (0, (1#128)); (0, 0); (0, (-1#256)); (0, 0); (0, 0); (0, 0); (0, 0); (0, 0); (0, 0); (0, 0); (0, 0)]);
    ((4, 0)%nat, [(0, 0); (0, 0); (0, 0); (0, 0); (0, 0); (0, 0); (0, 0); (0, 0); (0, 0); (0, 0); (0, 0);
      (0, 0); ((1#16), 0); (0, 0); ((1#4), 0); (0, 0); ((3#8), 0); (0, 0); ((1#4), 0); (0, 0); ((1#16), 0); (0, 0);
      (0, 0); (0, 0); (0, 0); (0, 0); (0, 0); (0, 0); (0, 0); (0, 0); (0, 0); (0, 0); (0, 0)]);
    ((4, 1)%nat, [(0, 0); (0, 0); (0, 0); (0, 0); (0, 0); (0, 0); (0, 0); (0, 0); (0, 0); (0, 0); (0, 0);
      (0, (1#32)); (0, 0); (0, (3#32)); (0, 0); (0, (1#16)); (0, 0); (0, (-1#16)); (0, 0); (0, (-3#32)); (0, 0); (0, (-1#32));
      (0, 0); (0, 0); (0, 0); (0, 0); (0, 0); (0, 0); (0, 0); (0, 0); (0, 0); (0, 0); (0, 0)]);
    ((4, 2)%nat, [(0, 0); (0, 0); (0, 0); (0, 0); (0, 0); (0, 0); (0, 0); (0, 0); (0, 0); (0, 0); ((-1#64), 0);
      (0, 0); ((-1#32), 0); (0, 0); ((1#64), 0); (0, 0); ((1#16), 0); (0, 0); ((1#64), 0); (0, 0); ((-1#32), 0); (0, 0);
      ((-1#64), 0); (0, 0); (0, 0); (0, 0); (0, 0); (0, 0); (0, 0); (0, 0); (0, 0); (0, 0); (0, 0)]);
    ((4, 3)%nat, [(0, 0); (0, 0); (0, 0); (0, 0); (0, 0); (0, 0); (0, 0); (0, 0); (0, 0); (0, (-1#128)); (0, 0);
      (0, (-1#128)); (0, 0); (0, (3#128)); (0, 0); (0, (3#128)); (0, 0); (0, (-3#128)); (0, 0); (0, (-3#128)); (0, 0); (0, (1#128));
      (0, 0); (0, (1#128)); (0, 0); (0, 0); (0, 0); (0, 0); (0, 0); (0, 0); (0, 0); (0, 0); (0, 0)]);
    ((4, 4)%nat, [(0, 0); (0, 0); (0, 0); (0, 0); (0, 0); (0, 0); (0, 0); (0, 0); ((1#256), 0); (0, 0); (0, 0);
      (0, 0); ((-1#64), 0); (0, 0); (0, 0); (0, 0); ((3#128), 0); (0, 0); (0, 0); (0, 0); ((-1#64), 0); (0, 0);
      (0, 0); (0, 0); ((1#256), 0); (0, 0); (0, 0); (0, 0); (0, 0); (0, 0); (0, 0); (0, 0); (0, 0)]);
    ((5, 0)%nat, [(0, 0); (0, 0); (0, 0); (0, 0); (0, 0); (0, 0); (0, 0); (0, 0); (0, 0); (0, 0); (0, 0);
      ((1#32), 0); (0, 0); ((5#32), 0); (0, 0); ((5#16), 0); (0, 0); ((5#16), 0); (0, 0); ((5#32), 0); (0, 0); ((1#32), 0);
      (0, 0); (0, 0); (0, 0); (0, 0); (0, 0); (0, 0); (0, 0); (0, 0); (0, 0); (0, 0); (0, 0)]);
    ((5, 1)%nat, [(0, 0); (0, 0); (0, 0); (0, 0); (0, 0); (0, 0); (0, 0); (0, 0); (0, 0); (0, 0); (0, (1#64));
      (0, 0); (0, (1#16)); (0, 0); (0, (5#64)); (0, 0); (0, 0); (0, 0); (0, (-5#64)); (0, 0); (0, (-1#16)); (0, 0);
      (0, (-1#64)); (0, 0); (0, 0); (0, 0); (0, 0); (0, 0); (0, 0); (0, 0); (0, 0); (0, 0); (0, 0)]);
    ((5, 2)%nat, [(0, 0); (0, 0); (0, 0); (0, 0); (0, 0); (0, 0); (0, 0); (0, 0); (0, 0); ((-1#128), 0); (0, 0);
      ((-3#128), 0); (0, 0); ((-1#128), 0); (0, 0); ((5#128), 0); (0, 0); ((5#128), 0); (0, 0); ((-1#128), 0); (0, 0); ((-3#128), 0);
      (0, 0); ((-1#128), 0); (0, 0); (0, 0); (0, 0); (0, 0); (0, 0); (0, 0); (0, 0); (0, 0); (0, 0)]);
    ((5, 3)%nat, [(0, 0); (0, 0); (0, 0); (0, 0); (0, 0); (0, 0); (0, 0); (0, 0); (0, (-1#256)); (0, 0); (0, (-1#128));
      (0, 0); (0, (1#128)); (0, 0); (0, (3#128)); (0, 0); (0, 0); (0, 0); (0, (-3#128)); (0, 0); (0, (-1#128)); (0, 0);
      (0, (1#128)); (0, 0); (0, (1#256)); (0, 0); (0, 0); (0, 0); (0, 0); (0, 0); (0, 0); (0, 0); (0, 0)]);
    ((6, 0)%nat, [(0, 0); (0, 0); (0, 0); (0, 0); (0, 0); (0, 0); (0, 0); (0, 0); (0, 0); (0, 0); ((1#64), 0);
      (0, 0); ((3#32), 0); (0, 0); ((15#64), 0); (0, 0); ((5#16), 0); (0, 0); ((15#64), 0); (0, 0); ((3#32), 0); (0, 0);
      ((1#64), 0); (0, 0); (0, 0); (0, 0); (0, 0); (0, 0); (0, 0); (0, 0); (0, 0); (0, 0); (0, 0)]);
    ((6, 1)%nat, [(0, 0); (0, 0); (0, 0); (0, 0); (0, 0); (0, 0); (0, 0); (0, 0); (0, 0); (0, (1#128)); (0, 0);
      (0, (5#128)); (0, 0); (0, (9#128)); (0, 0); (0, (5#128)); (0, 0); (0, (-5#128)); (0, 0); (0, (-9#128)); (0, 0); (0, (-5#128));
      (0, 0); (0, (-1#128)); (0, 0); (0, 0); (0, 0); (0, 0); (0, 0); (0, 0); (0, 0); (0, 0); (0, 0)]);
    ((6, 2)%nat, [(0, 0); (0, 0); (0, 0); (0, 0); (0, 0); (0, 0); (0, 0); (0, 0); ((-1#256), 0); (0, 0); ((-1#64), 0);
      (0, 0); ((-1#64), 0); (0, 0); ((1#64), 0); (0, 0); ((5#128), 0); (0, 0); ((1#64), 0); (0, 0); ((-1#64), 0); (0, 0);
      ((-1#64), 0); (0, 0); ((-1#256), 0); (0, 0); (0, 0); (0, 0); (0, 0); (0, 0); (0, 0); (0, 0); (0, 0)]);
    ((7, 0)%nat, [(0, 0); (0, 0); (0, 0); (0, 0); (0, 0); (0, 0); (0, 0); (0, 0); (0, 0); ((1#128), 0); (0, 0);
      ((7#128), 0); (0, 0); ((21#128), 0); (0, 0); ((35#128), 0); (0, 0); ((35#128), 0); (0, 0); ((21#128), 0); (0, 0); ((7#128), 0);
      (0, 0); ((1#128), 0); (0, 0); (0, 0); (0, 0); (0, 0); (0, 0); (0, 0); (0, 0); (0, 0); (0, 0)]);
    ((7, 1)%nat, [(0, 0); (0, 0); (0, 0); (0, 0); (0, 0); (0, 0); (0, 0); (0, 0); (0, (1#256)); (0, 0); (0, (3#128));
      (0, 0); (0, (7#128)); (0, 0); (0, (7#128)); (0, 0); (0, 0); (0, 0); (0, (-7#128)); (0, 0); (0, (-7#128)); (0, 0);
      (0, (-3#128)); (0, 0); (0, (-1#256)); (0, 0); (0, 0); (0, 0); (0, 0); (0, 0); (0, 0); (0, 0); (0, 0)]);
    ((8, 0)%nat, [(0, 0); (0, 0); (0, 0); (0, 0); (0, 0); (0, 0); (0, 0); (0, 0); ((1#256), 0); (0, 0); ((1#32), 0);
      (0, 0); ((7#64), 0); (0, 0); ((7#32), 0); (0, 0); ((35#128), 0); (0, 0); ((7#32), 0); (0, 0); ((7#64), 0); (0, 0);
      ((1#32), 0); (0, 0); ((1#256), 0); (0, 0); (0, 0); (0, 0); (0, 0); (0, 0); (0, 0); (0, 0); (0, 0)])
  ].
