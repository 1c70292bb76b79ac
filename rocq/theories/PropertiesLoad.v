(** Property C105: loading data from files.  Beside each theorem a concrete case. *)
From Coq Require Import String List Arith ZArith Bool Lia Reals Lra Sorted.
From Coquelicot Require Import Complex.
Import ListNotations.
From Verif Require Import PyBase CBase RMod DataModel SpecData DataProofs DataProofs2 DataProofs3 FDataModel SpecFData FDataProofs FDataProofs2
  PropertiesData PropertiesFData ReadModel SpecLoad LoadProofs.
Local Open Scope R_scope.

(** A file is read exactly when each of its rows starts with two numbers, and then
    its points are those numbers; otherwise the first other row decides: an empty
    row, or a row with a single number, is an IndexError, anything else a
    ValueError. *)
Theorem C105_csv : forall float_of rows,
  (forall t, read_csv float_of rows = Ok t <-> file_holds float_of rows t) /\
  (forall good t row rest, rows = (good ++ row :: rest)%list -> file_holds float_of good t -> (forall p, ~ row_holds float_of row p) ->
     read_csv float_of rows = Raise (match row with
                                     | [] => IndexError
                                     | [a] => match float_of a with Some _ => IndexError | None => ValueError end
                                     | _ => ValueError
                                     end)).
Proof.
  intros float_of rows. split.
  { intros t. split; [|apply read_csv_ok]. intros E. destruct (file_dec float_of rows) as [[t' F]|(g & t' & row & rest & -> & F & N)].
    { rewrite (read_csv_ok _ _ _ F) in E. injection E as ->. exact F. }
    rewrite (read_csv_bad _ _ _ _ _ F N) in E. discriminate. }
  intros good t row rest -> F N. apply (read_csv_bad _ _ _ _ _ F N).
Qed.
Print Assumptions C105_csv.

(** What is loaded: one polarization per file name, in the order given; its points
    are those of its file, angles converted and reduced into one turn, in
    nondecreasing order; exactly those of the file when they are in order
    already. *)
Theorem C105_load : forall files names u d, NoDup (map fst names) -> load_data files names u false = Ok d ->
  get_keys d = map fst names /\
  forall k n, In (k, n) names -> exists t p, files n = Ok t /\ get_pc d k "radians" = Ok p /\ normal_form p /\
    (forall x y, In (x, y) p -> exists x0, In (x0, y) (in_radians u t) /\ same_angle x x0) /\
    (forall x0 y0, In (x0, y0) (in_radians u t) -> exists x y, In (x, y) p /\ same_angle x x0) /\
    (in_order (in_radians u t) -> p = in_radians u t).
Proof.
  intros files names u d D E. destruct (load_data_spec files names u d D E) as (ts & L & C & K & N). split; [exact K|].
  intros k n I.
  assert (T : exists t, files n = Ok t /\ In (k, t) ts).
  { clear - L I. induction L as [|[a b] [a' t] names ts [E1 E2] F IH]; [destruct I|]. cbn [fst snd] in *. destruct I as [I|I].
    { injection I as -> ->. subst a'. exists t. split; [exact E2|left; reflexivity]. }
    destruct (IH I) as (t' & A & B). exists t'. split; [exact A|right; exact B]. }
  destruct T as (t & Ft & It). pose proof (given_input ts k t N It) as G.
  assert (R : reachable d) by (eexists _, _, _, d, []; split; [exact C|reflexivity]).
  assert (P : exists p, get_pc d k "radians" = Ok p).
  { eexists. apply (get_pc_In d k _ (reachable_wf _ R)). apply dget_In. exact (construct_get _ _ _ _ _ _ C G). }
  destruct P as [p P]. exists t, p. split; [exact Ft|]. split; [exact P|].
  split; [exact (proj1 (C01_normal_form _ _ _ _ [] C) k p P)|].
  destruct (C03_faithful_partial _ _ _ _ _ _ p C G (or_intror eq_refl) P) as (A & B & _).
  split; [exact A|]. split; [exact B|]. intros O. rewrite (in_order_pc ts u d k t N C It O) in P. injection P as <-. reflexivity.
Qed.
Print Assumptions C105_load.

(** From the files on the disk to the container: every polarization has the points of
    the rows of its own file, all of them, from the first row on. *)
Theorem C105_file : forall float_of opened,
  (forall name t, csv_file float_of opened name = Ok t <-> exists rows, opened name = Ok rows /\ file_holds float_of rows t) /\
  (forall name e, opened name = Raise e -> csv_file float_of opened name = Raise e) /\
  (forall names u d k n, NoDup (map fst names) -> load_data (csv_file float_of opened) names u false = Ok d -> In (k, n) names ->
     exists rows t p, opened n = Ok rows /\ file_holds float_of rows t /\ get_pc d k "radians" = Ok p /\
       (forall x y, In (x, y) p -> exists x0, In (x0, y) (in_radians u t) /\ same_angle x x0) /\
       (forall x0 y0, In (x0, y0) (in_radians u t) -> exists x y, In (x, y) p /\ same_angle x x0) /\
       (in_order (in_radians u t) -> p = in_radians u t)).
Proof.
  intros float_of opened.
  assert (A : forall name t, csv_file float_of opened name = Ok t <-> exists rows, opened name = Ok rows /\ file_holds float_of rows t).
  { intros name t. unfold csv_file. split.
    { intros E. destruct (opened name) as [rows|]; [|discriminate E]. cbn [bind] in E. exists rows. split; [reflexivity|]. exact (proj1 (proj1 (C105_csv float_of rows) t) E). }
    intros (rows & E & F). rewrite E. cbn [bind]. exact (proj2 (proj1 (C105_csv float_of rows) t) F). }
  split; [exact A|]. split.
  { intros name e E. unfold csv_file. rewrite E. reflexivity. }
  intros names u d k n D E I. destruct (proj2 (C105_load _ names u d D E) k n I) as (t & p & Ft & P & _ & Q1 & Q2 & Q3).
  apply A in Ft as (rows & Er & Fh). exists rows, t, p. repeat (split; [assumption|]). assumption.
Qed.
Print Assumptions C105_file.

(** Loading succeeds exactly when the units are known and every file can be read
    and holds a point; the first file that cannot be read decides the exception. *)
Theorem C105_outcome : forall files names u, NoDup (map fst names) ->
  (is_ok (load_data files names u false) <->
     (u = "radians"%string \/ u = "degrees"%string) /\ forall k n, In (k, n) names -> exists t, files n = Ok t /\ t <> []) /\
  (forall n1 k n n2 e n2o, names = (n1 ++ (k, n) :: n2)%list -> (forall k' n', In (k', n') n1 -> is_ok (files n')) -> files n = Raise e ->
     load_data files names u n2o = Raise e) /\
  ((forall k n, In (k, n) names -> is_ok (files n)) -> ~ is_ok (load_data files names u false) -> load_data files names u false = Raise ValueError).
Proof.
  intros files names u D. split; [|split].
  - split.
    + intros [d E]. destruct (load_data_spec files names u d D E) as (ts & L & C & K & N).
      destruct (construct_outcome (input DFloat ts) u) as [(U & W & _)|[_ X]]; [|congruence]. split; [exact U|].
      intros k n I. destruct (C105_load files names u d D E) as [_ H]. destruct (H k n I) as (t & p & Ft & P & (Np & _) & _ & B & _).
      exists t. split; [exact Ft|]. intros ->. destruct (H k n I) as (t' & p' & Ft' & P' & (Np' & _) & A' & _).
      rewrite Ft in Ft'. injection Ft' as <-. destruct p' as [|[x y] p']; [contradiction|].
      destruct (A' x y (or_introl eq_refl)) as (x0 & J & _). destruct J.
    + intros [U H]. destruct (all_tables files names) as [ts L]; [intros k n I; destruct (H k n I) as (t & E & _); eexists; exact E|].
      destruct (load_data_ok files names ts u L D) as (d & E & _); [|exact U|exists d; exact E].
      apply Forall_forall. intros [k t] I. destruct (loaded_table files names ts k t L I) as (n & J & E).
      destruct (H k n J) as (t' & E' & Ne). cbn [snd]. congruence.
  - intros n1 k n n2 e n2o -> H E. apply load_raises; auto.
  - intros H N. destruct (all_tables files names) as [ts L]; [exact H|]. unfold load_data in *. rewrite (read_all_ok _ _ _ L) in *. cbn [bind] in *.
    destruct (construct_outcome_all (input DFloat ts) u false) as [[d C]|X]; [|exact X]. exfalso. apply N. exists d. exact C.
Qed.
Print Assumptions C105_outcome.

(** Dark subtraction: signal minus background at each angle, for files whose points
    are in order and whose angles agree (up to the tolerance), each in its own
    unit. *)
Theorem C105_dark : forall files names darks u du, names <> [] -> NoDup (map fst names) -> NoDup (map fst darks) ->
  (u = "radians"%string \/ u = "degrees"%string) -> (du = "radians"%string \/ du = "degrees"%string) ->
  (forall k, In k (map fst names) <-> In k (map fst darks)) ->
  (forall k1 n1 r1 k2 n2 r2 t1 t2, names = (k1, n1) :: r1 -> darks = (k2, n2) :: r2 -> files n1 = Ok t1 -> files n2 = Ok t2 ->
     length t1 = length t2) ->
  (forall k, In k (map fst names) -> exists t1 t2, table_of files names k t1 /\ table_of files darks k t2 /\
     in_order (in_radians u t1) /\ in_order (in_radians du t2) /\
     Forall2 (fun a b => close (fst a) (fst b)) (in_radians u t1) (in_radians du t2)) ->
  exists d, load_data_and_dark_subtract files names u darks du false = Ok d /\ get_keys d = map fst names /\
    forall k t1 t2, table_of files names k t1 -> table_of files darks k t2 ->
      get_pc d k "radians" = Ok (difference (in_radians u t1) (in_radians du t2)).
Proof. exact dark_ok. Qed.
Print Assumptions C105_dark.

(** Different polarizations are refused without looking at any file. *)
Theorem C105_dark_keys : forall files names darks u du n2o, ~ (forall k, In k (map fst names) <-> In k (map fst darks)) ->
  load_data_and_dark_subtract files names u darks du n2o = Raise ValueError.
Proof.
  intros files names darks u du n2o N. unfold load_data_and_dark_subtract.
  destruct (set_eqb (map fst names) (map fst darks)) eqn:E; [|reflexivity]. exfalso. apply N. apply set_eqb_spec. exact E.
Qed.
Print Assumptions C105_dark_keys.

Definition case_float (s : string) : option R :=
  if String.eqb s "0" then Some 0 else if String.eqb s "1" then Some 1 else if String.eqb s "5" then Some 5 else None.
Definition case_open (n : string) : res (list (list string)) :=
  if String.eqb n "pp.csv" then Ok [["0"; "5"]; ["1"; "5"; "note"]]%string
  else if String.eqb n "dark.csv" then Ok [["0"; "1"]; ["1"; "0"]]%string
  else if String.eqb n "head.csv" then Ok [["phi"; "counts"]; ["0"; "1"]]%string
  else if String.eqb n "blank.csv" then Ok [["0"; "1"]; []]%string
  else Raise KeyError.
Example C105_case : exists d,
  load_data_and_dark_subtract (csv_file case_float case_open) [("PP", "pp.csv")]%string "radians" [("PP", "dark.csv")]%string "radians" false = Ok d /\
  get_pc d "PP" "radians" = Ok [(0, 5 - 1); (1, 5 - 0)] /\
  csv_file case_float case_open "head.csv" = Raise ValueError /\ csv_file case_float case_open "blank.csv" = Raise IndexError.
Proof.
  assert (pi : 3 < PI) by (pose proof PI_bounds; lra).
  assert (O : forall a b, in_order (in_radians "radians" [(0, a); (1, b)])).
  { intros a b. split; [discriminate|]. split.
    { repeat constructor; cbn; lra. }
    constructor; [constructor; [constructor|constructor]|]. constructor; [cbn; lra|constructor]. }
  assert (T1 : csv_file case_float case_open "pp.csv" = Ok [(0, 5); (1, 5)]) by reflexivity.
  assert (T2 : csv_file case_float case_open "dark.csv" = Ok [(0, 1); (1, 0)]) by reflexivity.
  destruct (C105_dark (csv_file case_float case_open) [("PP", "pp.csv")]%string [("PP", "dark.csv")]%string "radians" "radians") as (d & E & _ & H).
  { discriminate. }
  1-2: repeat constructor; intros [].
  1-2: auto.
  { intros k. reflexivity. }
  { intros k1 n1 r1 k2 n2 r2 t1 t2 A B. injection A as _ <- _. injection B as _ <- _. rewrite T1, T2. intros X Y. injection X as <-. injection Y as <-. reflexivity. }
  { intros k [<-|[]]. exists [(0, 5); (1, 5)], [(0, 1); (1, 0)]. split; [exists "pp.csv"%string; split; [left; reflexivity|exact T1]|].
    split; [exists "dark.csv"%string; split; [left; reflexivity|exact T2]|]. split; [apply O|]. split; [apply O|].
    repeat constructor; cbn; unfold close; rewrite Rminus_diag_eq, Rabs_R0 by reflexivity; try rewrite Rabs_R0; try rewrite Rabs_R1; lra. }
  exists d. split; [exact E|]. split; [|split; reflexivity].
  apply (H "PP"%string [(0, 5); (1, 5)] [(0, 1); (1, 0)]).
  { exists "pp.csv"%string. split; [left; reflexivity|exact T1]. }
  exists "dark.csv"%string. split; [left; reflexivity|exact T2].
Qed.
