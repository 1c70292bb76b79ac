(** Proofs for C131. *)
From Coq Require Import Reals ZArith List String Bool Lra Lia.
From Coquelicot Require Import Rbar.
From Flocq Require Import Core IEEE754.BinarySingleNaN.
From Verif Require Import PyBase NanModel SpecNan.
Import ListNotations.
Local Open Scope nat_scope.

Lemma ltb_size (x y : b64) : number x -> number y -> (Bltb x y = true <-> Rbar_lt (size x) (size y)).
Proof.
  unfold number. intros Nx Ny. destruct (is_finite x) eqn:Fx, (is_finite y) eqn:Fy.
  - rewrite Bltb_correct by assumption. assert (Sx : size x = Finite (B2R x)) by (destruct x; try discriminate Fx; reflexivity).
    assert (Sy : size y = Finite (B2R y)) by (destruct y; try discriminate Fy; reflexivity). rewrite Sx, Sy. cbn [Rbar_lt].
    case Rlt_bool_spec; intros H; split; intros; try reflexivity; try lra; discriminate.
  - destruct y as [s|[|]| |s m e B]; try discriminate Fy; try discriminate Ny; destruct x as [s'|[|]| |[|] m' e' B']; try discriminate Fx; cbn; split; intros H; try reflexivity; try discriminate; try contradiction; exact Logic.I.
  - destruct x as [s|[|]| |s m e B]; try discriminate Fx; try discriminate Nx; destruct y as [s'|[|]| |[|] m' e' B']; try discriminate Fy; cbn; split; intros H; try reflexivity; try discriminate; try contradiction; exact Logic.I.
  - destruct x as [s|[|]| |s m e B]; try discriminate Fx; try discriminate Nx; destruct y as [s'|[|]| |s' m' e' B']; try discriminate Fy; try discriminate Ny; cbn; split; intros H; try reflexivity; try discriminate; try contradiction; exact Logic.I.
Qed.
Lemma ltb_nan_l (y : b64) : Bltb B754_nan y = false.
Proof. destruct y as [s|s| |s m e B]; reflexivity. Qed.
Lemma ltb_nan_r (x : b64) : Bltb x B754_nan = false.
Proof. destruct x as [s|[|]| |[|] m e B]; reflexivity. Qed.
Lemma nan_cases (x : b64) : x = B754_nan \/ number x.
Proof. destruct x; [right; reflexivity|right; reflexivity|left; reflexivity|right; reflexivity]. Qed.
Lemma ltb_number (x y : b64) : Bltb x y = true -> number x /\ number y.
Proof.
  intros H. split; [destruct (nan_cases x) as [->|N]; [rewrite ltb_nan_l in H; discriminate|exact N]|].
  destruct (nan_cases y) as [->|N]; [rewrite ltb_nan_r in H; discriminate|exact N].
Qed.
Lemma not_ltb (x y : b64) : number x -> number y -> Bltb x y = false -> Rbar_le (size y) (size x).
Proof.
  intros Nx Ny H. apply Rbar_not_lt_le. intros L. apply (ltb_size x y Nx Ny) in L. congruence.
Qed.

(** one loop for both directions *)
Section Best.
Variable better : b64 -> b64 -> bool.
Variable le : b64 -> b64 -> Prop.
Hypothesis better_nan_l : forall y, better B754_nan y = false.
Hypothesis better_nan_r : forall x, better x B754_nan = false.
Hypothesis better_le : forall x y, number x -> number y -> better x y = true -> le x y.
Hypothesis not_better : forall x y, number x -> number y -> better x y = false -> le y x.
Hypothesis le_trans : forall x y z, le x y -> le y z -> le x z.
Hypothesis le_refl : forall x, le x x.
Definition best (l : list b64) (x : b64) : b64 := fold_left (fun m y => if better m y then y else m) l x.
Lemma best_nan l : best l B754_nan = B754_nan.
Proof. unfold best. induction l as [|y l IH]; [reflexivity|]. cbn [fold_left]. rewrite better_nan_l. exact IH. Qed.
Lemma best_number l : forall x, number x -> number (best l x) /\ In (best l x) (x :: l) /\ forall y, In y (x :: l) -> number y -> le y (best l x).
Proof.
  induction l as [|a l IH]; intros x Nx.
  - split; [exact Nx|]. split; [left; reflexivity|]. intros y [<-|[]] _. apply le_refl.
  - unfold best. cbn [fold_left]. fold (best l (if better x a then a else x)). destruct (nan_cases a) as [->|Na].
    + rewrite better_nan_r. destruct (IH x Nx) as (A & B & C). split; [exact A|]. split; [destruct B as [B|B]; [left; exact B|right; right; exact B]|].
      intros y [<-|[<-|I]] Ny; [apply C; [left; reflexivity|exact Ny]|discriminate Ny|apply C; [right; exact I|exact Ny]].
    + destruct (better x a) eqn:E.
      * destruct (IH a Na) as (A & B & C). split; [exact A|]. split; [right; exact B|].
        intros y [<-|I] Ny; [|apply C; assumption]. apply (le_trans _ a); [apply better_le; assumption|apply C; [left; reflexivity|exact Na]].
      * destruct (IH x Nx) as (A & B & C). split; [exact A|]. split; [destruct B as [B|B]; [left; exact B|right; right; exact B]|].
        intros y [<-|[<-|I]] Ny; [apply C; [left; reflexivity|exact Ny]| |apply C; [right; exact I|exact Ny]].
        apply (le_trans _ x); [apply not_better; assumption|apply C; [left; reflexivity|exact Nx]].
Qed.

Variable lt : b64 -> b64 -> Prop.
Hypothesis better_lt : forall x y, number x -> number y -> better x y = true -> lt x y.
Hypothesis lt_le : forall x y, lt x y -> le x y.
Hypothesis lt_trans : forall x y z, lt x y -> lt y z -> lt x z.
Hypothesis le_lt_trans : forall x y z, le x y -> lt y z -> lt x z.
Definition pick_best (l : list b64) : res b64 := match l with [] => Raise ValueError | x :: l' => Ok (best l' x) end.
Fixpoint gloop (d : list (string * list (R * b64))) (pc : option string) (b : b64) : res (option string * b64) :=
  match d with
  | [] => Ok (pc, b)
  | (k, v) :: d' => do m <- pick_best (map snd v); if better b m then gloop d' (Some k) m else gloop d' pc b
  end.
Lemma gloop_spec d : (forall k v, In (k, v) d -> v <> []) -> forall pc b, number b ->
  exists o m, gloop d pc b = Ok (o, m) /\ number m /\ le b m /\
    (forall k v y, In (k, v) d -> begins_well v -> In y (map snd v) -> number y -> le y m) /\
    ((o = pc /\ m = b) \/ exists k before v after, o = Some k /\ d = before ++ (k, v) :: after /\ begins_well v /\ In m (map snd v) /\ lt b m /\
       forall k' v' y, In (k', v') before -> begins_well v' -> In y (map snd v') -> number y -> lt y m).
Proof.
  induction d as [|[k v] d IH]; intros NE pc b Nb.
  - exists pc, b. split; [reflexivity|]. split; [exact Nb|]. split; [apply le_refl|]. split; [intros k v y []|]. left. auto.
  - assert (NE' : forall k v, In (k, v) d -> v <> []) by (intros k' v' I; apply (NE k' v'); right; exact I).
    destruct v as [|[a x] v]; [exfalso; apply (NE k [] (or_introl eq_refl)); reflexivity|].
    cbn [gloop map snd pick_best bind]. destruct (nan_cases x) as [->|Nx].
    + rewrite best_nan, better_nan_r. destruct (IH NE' pc b Nb) as (o & m & E & Nm & Bm & U & C). exists o, m. split; [exact E|]. split; [exact Nm|]. split; [exact Bm|].
      assert (NW : ~ begins_well ((a, B754_nan) :: v)) by (intros (a' & y' & v' & X & Y); injection X as <- <- <-; discriminate Y).
      split.
      { intros k' v' y [X|I] W Iy Ny; [injection X as <- <-; contradiction|]. exact (U k' v' y I W Iy Ny). }
      destruct C as [C|(k' & before & v' & after & -> & -> & W & Im0 & L & F)]; [left; exact C|]. right.
      exists k', ((k, (a, B754_nan) :: v) :: before), v', after. split; [reflexivity|]. split; [reflexivity|]. split; [exact W|]. split; [exact Im0|]. split; [exact L|].
      intros k2 v2 y [X|I] W2 Iy Ny; [injection X as <- <-; contradiction|]. exact (F k2 v2 y I W2 Iy Ny).
    + destruct (best_number (map snd v) x Nx) as (N0 & I0 & U0). set (m0 := best (map snd v) x) in *.
      assert (W0 : begins_well ((a, x) :: v)) by (exists a, x, v; auto).
      destruct (better b m0) eqn:E0.
      * assert (L0 : lt b m0) by (apply better_lt; assumption).
        destruct (IH NE' (Some k) m0 N0) as (o & m & E & Nm & Bm & U & C). exists o, m. split; [exact E|]. split; [exact Nm|].
        split; [apply (le_trans _ m0); [apply lt_le; exact L0|exact Bm]|]. split.
        { intros k' v' y [X|I] W Iy Ny; [|exact (U k' v' y I W Iy Ny)]. injection X as <- <-. apply (le_trans _ m0); [apply U0; assumption|exact Bm]. }
        right. destruct C as [[-> ->]|(k' & before & v' & after & -> & -> & W & Im0 & L & F)].
        { exists k, [], ((a, x) :: v), d. split; [reflexivity|]. split; [reflexivity|]. split; [exact W0|]. split; [exact I0|]. split; [exact L0|]. intros k' v' y []. }
        exists k', ((k, (a, x) :: v) :: before), v', after. split; [reflexivity|]. split; [reflexivity|]. split; [exact W|]. split; [exact Im0|].
        split; [apply (lt_trans _ m0); assumption|].
        intros k2 v2 y [X|I] W2 Iy Ny; [|exact (F k2 v2 y I W2 Iy Ny)]. injection X as <- <-. apply (le_lt_trans _ m0); [apply U0; assumption|exact L].
      * assert (L0 : le m0 b) by (apply not_better; assumption).
        destruct (IH NE' pc b Nb) as (o & m & E & Nm & Bm & U & C). exists o, m. split; [exact E|]. split; [exact Nm|]. split; [exact Bm|]. split.
        { intros k' v' y [X|I] W Iy Ny; [|exact (U k' v' y I W Iy Ny)]. injection X as <- <-. apply (le_trans _ m0); [apply U0; assumption|].
          apply (le_trans _ b); assumption. }
        destruct C as [C|(k' & before & v' & after & -> & -> & W & Im0 & L & F)]; [left; exact C|]. right.
        exists k', ((k, (a, x) :: v) :: before), v', after. split; [reflexivity|]. split; [reflexivity|]. split; [exact W|]. split; [exact Im0|]. split; [exact L|].
        intros k2 v2 y [X|I] W2 Iy Ny; [|exact (F k2 v2 y I W2 Iy Ny)]. injection X as <- <-. apply (le_lt_trans _ m0); [apply U0; assumption|].
        apply (le_lt_trans _ b); assumption.
Qed.

End Best.

Lemma pymax_best x l : pymax (x :: l) = Ok (best Bltb l x).
Proof. reflexivity. Qed.
Lemma pymin_best x l : pymin (x :: l) = Ok (best (fun m y => Bltb y m) l x).
Proof. reflexivity. Qed.
Lemma best_max l x : number x -> number (best Bltb l x) /\ In (best Bltb l x) (x :: l) /\ forall y, In y (x :: l) -> number y -> below y (best Bltb l x).
Proof.
  apply (best_number Bltb below); unfold below.
  - apply ltb_nan_r.
  - intros a b Na Nb H. apply Rbar_lt_le. apply ltb_size; assumption.
  - intros a b Na Nb H. apply not_ltb; assumption.
  - intros a b c. apply Rbar_le_trans.
  - intros a. apply Rbar_le_refl.
Qed.
Lemma best_min l x : number x -> number (best (fun m y => Bltb y m) l x) /\ In (best (fun m y => Bltb y m) l x) (x :: l) /\
  forall y, In y (x :: l) -> number y -> below (best (fun m y => Bltb y m) l x) y.
Proof.
  apply (best_number (fun m y => Bltb y m) (fun a b => below b a)); unfold below.
  - apply ltb_nan_l.
  - intros a b Na Nb H. apply Rbar_lt_le. apply ltb_size; assumption.
  - intros a b Na Nb H. apply not_ltb; assumption.
  - intros a b c H1 H2. apply (Rbar_le_trans _ (size b)); assumption.
  - intros a. apply Rbar_le_refl.
Qed.
Lemma min_nan l : best (fun m y => Bltb y m) l B754_nan = B754_nan.
Proof. apply best_nan. apply ltb_nan_r. Qed.
Lemma max_nan l : best Bltb l B754_nan = B754_nan.
Proof. apply best_nan. apply ltb_nan_l. Qed.

(** the loops over the polarizations *)
Lemma max_gloop d : forall pc b, max_loop d pc b = gloop Bltb d pc b.
Proof. induction d as [|[k [|[a x] v]] d IH]; intros pc b; [reflexivity|reflexivity|]. cbn [max_loop gloop map snd pymax pick_best bind]. fold (best Bltb (map snd v) x). destruct (Bltb b _); apply IH. Qed.
Lemma min_gloop d : forall pc b, min_loop d pc b = gloop (fun m y => Bltb y m) d pc b.
Proof. induction d as [|[k [|[a x] v]] d IH]; intros pc b; [reflexivity|reflexivity|]. cbn [min_loop gloop map snd pymin pick_best bind]. fold (best (fun m y => Bltb y m) (map snd v) x). destruct (Bltb _ b); apply IH. Qed.
Lemma max_spec d : (forall k v, In (k, v) d -> v <> []) -> exists o m, max_loop d None (inf true) = Ok (o, m) /\ found below under d (inf true) o m.
Proof.
  intros NE. rewrite max_gloop. unfold found. apply (gloop_spec Bltb below); unfold below, under.
  - apply ltb_nan_l.
  - apply ltb_nan_r.
  - intros a b Na Nb H. apply Rbar_lt_le. apply ltb_size; assumption.
  - intros a b Na Nb H. apply not_ltb; assumption.
  - intros a b c. apply Rbar_le_trans.
  - intros a. apply Rbar_le_refl.
  - intros a b Na Nb H. apply ltb_size; assumption.
  - intros a b. apply Rbar_lt_le.
  - intros a b c. apply Rbar_lt_trans.
  - intros a b c. apply Rbar_le_lt_trans.
  - exact NE.
  - reflexivity.
Qed.
Lemma min_spec d : (forall k v, In (k, v) d -> v <> []) -> exists o m, min_loop d None (inf false) = Ok (o, m) /\ found (fun x y => below y x) (fun x y => under y x) d (inf false) o m.
Proof.
  intros NE. rewrite min_gloop. unfold found. apply gloop_spec with (le := fun x y => below y x) (lt := fun x y => under y x); unfold below, under.
  - apply ltb_nan_r.
  - apply ltb_nan_l.
  - intros a b Na Nb H. apply Rbar_lt_le. apply ltb_size; assumption.
  - intros a b Na Nb H. apply not_ltb; assumption.
  - intros a b c H1 H2. apply (Rbar_le_trans _ (size b)); assumption.
  - intros a. apply Rbar_le_refl.
  - intros a b Na Nb H. apply ltb_size; assumption.
  - intros a b. apply Rbar_lt_le.
  - intros a b c H1 H2. apply (Rbar_lt_trans _ (size b)); assumption.
  - intros a b c H1 H2. apply (Rbar_lt_le_trans _ (size b)); assumption.
  - exact NE.
  - reflexivity.
Qed.

Lemma all_missing_max d : (forall k v, In (k, v) d -> begins_missing v) -> forall pc b, max_loop d pc b = Ok (pc, b).
Proof.
  induction d as [|[k v] d IH]; intros H pc b; [reflexivity|]. destruct (H k v (or_introl eq_refl)) as (a & v' & ->). cbn [max_loop map snd].
  rewrite pymax_best, max_nan. cbn [bind]. rewrite ltb_nan_r. apply IH. intros k' v2 I. apply (H k' v2). right. exact I.
Qed.
Lemma all_missing_min d : (forall k v, In (k, v) d -> begins_missing v) -> forall pc b, min_loop d pc b = Ok (pc, b).
Proof.
  induction d as [|[k v] d IH]; intros H pc b; [reflexivity|]. destruct (H k v (or_introl eq_refl)) as (a & v' & ->). cbn [min_loop map snd].
  rewrite pymin_best, min_nan. cbn [bind]. rewrite ltb_nan_l. apply IH. intros k' v2 I. apply (H k' v2). right. exact I.
Qed.
(** polarizations that begin with a missing value are passed over *)
Definition wellb (v : list (R * b64)) : bool := match v with (_, y) :: _ => negb (is_nan y) | [] => true end.
Lemma max_skips d : forall pc b, max_loop d pc b = max_loop (filter (fun kv => wellb (snd kv)) d) pc b.
Proof.
  induction d as [|[k v] d IH]; intros pc b; [reflexivity|]. cbn [filter snd]. destruct v as [|[a x] v]; [reflexivity|]. cbn [wellb].
  destruct (nan_cases x) as [->|N].
  - cbn [is_nan negb max_loop map snd]. rewrite pymax_best, max_nan. cbn [bind]. rewrite ltb_nan_r. apply IH.
  - rewrite N. cbn [negb max_loop]. destruct (pymax (map snd ((a, x) :: v))) as [m|e]; [|reflexivity]. cbn [bind]. destruct (Bltb b m); apply IH.
Qed.

(** arithmetic *)
Lemma div_inf (x : b64) : is_finite x = true -> exists s, divide x (inf true) = B754_zero s.
Proof. destruct x as [s|s| |s m e B]; try discriminate; intros _; eexists; reflexivity. Qed.
Lemma zero_mult s (y : b64) : (is_finite y = true -> wiped (mult (B754_zero s) y)) /\ (is_finite y = false -> mult (B754_zero s) y = B754_nan).
Proof. destruct y as [s'|s'| |s' m e B]; split; intros H; try discriminate H; reflexivity || exact Logic.I. Qed.
Lemma zero_not_neg s : Bltb (B754_zero s : b64) zero = false.
Proof. destruct s; reflexivity. Qed.

Definition all_values (d : ndat) : list b64 := flat_map (fun kv => map snd (snd kv)) (nd_data d).
Lemma values_map f d : flat_map (fun kv => map snd (snd kv)) (map_y f d) = map f (flat_map (fun kv : string * list (R * b64) => map snd (snd kv)) d).
Proof.
  induction d as [|[k v] d IH]; [reflexivity|]. cbn [map_y map flat_map fst snd]. rewrite map_app. change (map (fun kv => (fst kv, map (fun ay => (fst ay, f (snd ay))) (snd kv))) d) with (map_y f d).
  rewrite IH. f_equal. rewrite !map_map. reflexivity.
Qed.
Lemma angles_map f d : map (fun kv => (fst kv, map fst (snd kv))) (map_y f d) = map (fun kv : string * list (R * b64) => (fst kv, map fst (snd kv))) d.
Proof. unfold map_y. rewrite map_map. apply map_ext. intros [k v]. cbn [fst snd]. rewrite map_map. reflexivity. Qed.
Lemma normalize_wipes d desired : (forall k v, In (k, v) (nd_data d) -> begins_missing v) -> is_finite desired = true ->
  exists d', normalize_data d desired = (d', Ok tt) /\ exists f, nd_data d' = map_y f (nd_data d) /\
    (forall y, is_finite y = true -> wiped (f y)) /\ (forall y, is_finite y = false -> f y = B754_nan) /\ (is_finite (nd_scale d) = true -> wiped (nd_scale d')).
Proof.
  intros H Fd. unfold normalize_data, get_maxval. rewrite (all_missing_max _ H). destruct (div_inf desired Fd) as [s ->].
  unfold scale_data. rewrite zero_not_neg. eexists. split; [reflexivity|]. exists (mult (B754_zero s)). cbn [nd_data nd_scale].
  split; [reflexivity|]. split; [intros y; apply zero_mult|]. split; [intros y; apply zero_mult|].
  intros Fs. destruct (nd_scale d) as [s'|s'| |s' m e B]; try discriminate Fs; exact Logic.I.
Qed.
Lemma subtract_sinks d : (forall k v, In (k, v) (nd_data d) -> begins_missing v) ->
  exists d', subtract_min d = (d', Ok tt) /\ exists f, nd_data d' = map_y f (nd_data d) /\ (forall y, is_finite y = true -> f y = inf true) /\
    nd_scale d' = nd_scale d /\ (is_finite (nd_offset d) = true -> nd_offset d' = inf true).
Proof.
  intros H. unfold subtract_min, get_minval. rewrite (all_missing_min _ H). eexists. split; [reflexivity|]. exists (fun y => minus y (inf false)).
  assert (X : forall y, is_finite y = true -> minus y (inf false) = inf true) by (intros y Fy; destruct y as [s|s| |s m e B]; try discriminate Fy; reflexivity).
  split; [reflexivity|]. split; [exact X|]. split; [reflexivity|]. exact (X (nd_offset d)).
Qed.
(** A finite minimum: missing values stay, the others and the offset are moved by it. *)
Lemma minus_self (m : b64) : is_finite m = true -> wiped (minus m m).
Proof.
  intros Fm. pose proof (Bminus_correct 53 1024 _ _ mode_NE m m Fm Fm) as H. fold (minus m m) in H.
  replace (B2R m - B2R m)%R with 0%R in H by ring. rewrite round_0 in H by apply valid_rnd_N. rewrite Rabs_R0, Rlt_bool_true in H by apply bpow_gt_0.
  destruct H as (H & Fi & _). destruct (minus m m) as [s|s| |s x e B]; try discriminate Fi; [exact Logic.I|]. exfalso. cbn [B2R] in H. apply Float_prop.eq_0_F2R in H. destruct s; discriminate H.
Qed.
Lemma subtract_moves d o m : get_minval d = Ok (o, m) -> is_finite m = true ->
  exists d', subtract_min d = (d', Ok tt) /\ exists f, nd_data d' = map_y f (nd_data d) /\ f B754_nan = B754_nan /\ wiped (f m) /\
    nd_scale d' = nd_scale d /\ nd_offset d' = f (nd_offset d) /\
    forall y, is_finite y = true -> (Rabs (round radix2 (SpecFloat.fexp 53 1024) ZnearestE (B2R y - B2R m)) < bpow radix2 1024)%R ->
      is_finite (f y) = true /\ B2R (f y) = round radix2 (SpecFloat.fexp 53 1024) ZnearestE (B2R y - B2R m).
Proof.
  intros E Fm. unfold subtract_min. rewrite E. eexists. split; [reflexivity|]. exists (fun y => minus y m). split; [reflexivity|].
  split; [reflexivity|]. split; [exact (minus_self m Fm)|]. split; [reflexivity|]. split; [reflexivity|].
  intros y Fy B. pose proof (Bminus_correct 53 1024 _ _ mode_NE y m Fy Fm) as H. fold (minus y m) in H. rewrite Rlt_bool_true in H by exact B.
  destruct H as (H1 & H2 & _). split; assumption.
Qed.
Lemma normalize_zero d desired o s : is_finite desired = true -> (0 < B2R desired)%R -> get_maxval d = Ok (o, B754_zero s) ->
  (s = true -> normalize_data d desired = (d, Raise ValueError)) /\
  (s = false -> exists d', normalize_data d desired = (d', Ok tt) /\ exists f, nd_data d' = map_y f (nd_data d) /\ nd_scale d' = mult (nd_scale d) (inf false) /\
    (forall t, f (B754_zero t) = B754_nan) /\ forall y, is_finite y = true -> (B2R y < 0)%R -> f y = inf true).
Proof.
  intros Fd P E. destruct desired as [t|t| |t m e B]; try discriminate Fd; [cbn in P; lra|].
  destruct t; [exfalso; cbn [B2R] in P; pose proof (F2R_lt_0 radix2 (Float radix2 (Z.neg m) e) eq_refl); cbn [cond_Zopp] in P; cbn in *; lra|].
  unfold normalize_data. rewrite E. split; intros ->.
  - reflexivity.
  - change (divide (B754_finite false m e B) (B754_zero false)) with (inf false). unfold scale_data. change (Bltb (inf false) zero) with false. cbn iota.
    eexists. split; [reflexivity|]. exists (mult (inf false)). split; [reflexivity|]. split; [reflexivity|]. split; [intros t; reflexivity|].
    intros y Fy L. destruct y as [t|t| |t m' e' B']; try discriminate Fy; [cbn in L; lra|]. destruct t; [reflexivity|].
    exfalso. pose proof (F2R_gt_0 radix2 (Float radix2 (Z.pos m') e') eq_refl). cbn in *. lra.
Qed.
Lemma scale_nan d : exists d', scale_data d B754_nan = (d', Ok tt) /\ nd_data d' = map_y (fun _ => B754_nan) (nd_data d) /\ nd_scale d' = B754_nan.
Proof.
  assert (M : forall y : b64, mult B754_nan y = B754_nan) by (intros [s|s| |s m e B]; reflexivity).
  exists (mkndat (map_y (fun y => mult B754_nan y) (nd_data d)) (mult (nd_scale d) B754_nan) (nd_offset d)). split; [reflexivity|]. cbn [nd_data nd_scale].
  split; [|destruct (nd_scale d); reflexivity].
  unfold map_y. apply map_ext. intros [k v]. cbn [fst snd]. apply (f_equal (pair k)). apply map_ext. intros [a y]. cbn [fst snd]. rewrite M. reflexivity.
Qed.
