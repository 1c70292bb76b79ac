(** Proofs for C123-C125. *)
From Coq Require Import String Ascii List Arith ZArith Bool Lia Reals Lra.
From Coquelicot Require Import Complex.
Import ListNotations.
From Verif Require Import PyBase RMod CBase DataModel SpecData DataProofs DataProofs2 FDataModel SpecFData Expr FormModel FitModel SpecFit FitProofs FitProofs2 FitProofs3 FitProofs4 FitProofs5 SpecBook.
Local Open Scope nat_scope.

(** ** Bookkeeping *)
Lemma asked_deg u : lower u = "degrees"%string -> forall a, asked a u = deg2rad a.
Proof. intros E a. unfold asked, deg2rad. rewrite E. cbn. field. Qed.
Lemma asked_rad u : lower u = "radians"%string -> forall a, asked a u = a.
Proof. intros E a. unfold asked. rewrite E. reflexivity. Qed.
Lemma units_cases u : (lower u = "radians"%string \/ lower u = "degrees"%string) \/ (lower u <> "radians"%string /\ lower u <> "degrees"%string).
Proof. destruct (String.eqb_spec (lower u) "radians"); [auto|]. destruct (String.eqb_spec (lower u) "degrees"); auto. Qed.
Lemma check_bad u : lower u <> "radians"%string -> lower u <> "degrees"%string -> check_angle_units (lower u) = Raise ValueError /\ forall a, asked a u = 0%R.
Proof.
  intros A B. unfold check_angle_units, asked. apply String.eqb_neq in A. apply String.eqb_neq in B. rewrite A, B. split; reflexivity.
Qed.

Lemma step_phase d o : dc_phase (fst (step d o)) = (dc_phase d + match o with OPhase a u => asked a u | _ => 0 end)%R.
Proof.
  destruct o as [f|x| |a u|f]; cbn [step].
  - unfold scale_data. destruct (Rltb f 0); cbn; ring.
  - unfold normalize_data. destruct (get_maxval d) as [[[k m]|]|e]; cbn; try ring.
    + destruct (Reqb m 0); [destruct (Rltb x 0); cbn; ring|]. unfold scale_data. destruct (Rltb (x / m) 0); cbn; ring.
    + unfold scale_data. destruct (Rltb 0 0); cbn; ring.
  - unfold subtract_min. destruct (get_minval d) as [[[k m]|]|e]; cbn; ring.
  - unfold phase_shift_data. destruct (units_cases u) as [[U|U]|[A B]].
    + rewrite U, (asked_rad u U). reflexivity.
    + rewrite U, (asked_deg u U). reflexivity.
    + destruct (check_bad u A B) as (-> & ->). cbn. ring.
  - unfold filter_data. destruct (filter_loop f (dc_data d)). cbn. ring.
Qed.
Lemma run_phase h : forall d, dc_phase (run d h) = (dc_phase d + shifts h)%R.
Proof.
  induction h as [|o h IH]; intros d; cbn [run shifts fold_right]; [ring|]. rewrite IH, step_phase. unfold shifts. destruct o; ring.
Qed.
Lemma reported_phase d : get_phase_shift d "radians" = Ok (dc_phase d) /\ get_phase_shift d "degrees" = Ok (dc_phase d * (180 / PI))%R.
Proof. split; reflexivity. Qed.

Lemma filter_keys f d : dkeys (fst (filter_loop f d)) = dkeys d.
Proof.
  induction d as [|[k v] d IH]; cbn [filter_loop]; [reflexivity|]. destruct (f (map snd v)) as [ys|]; [|reflexivity].
  destruct (length ys =? length v)%nat; [|reflexivity]. destruct (filter_loop f d) as [d' r]. cbn in *. now rewrite IH.
Qed.

Lemma filter_get f d : forall k p, dget k (fst (filter_loop f d)) = Some p -> exists p0, dget k d = Some p0 /\ map fst p = map fst p0.
Proof.
  induction d as [|[k v] d IH]; cbn [filter_loop]; intros k0 p; [discriminate|]. destruct (f (map snd v)) as [ys|]; [|intros E; exists p; auto].
  destruct (Nat.eqb_spec (length ys) (length v)) as [L|]; [|intros E; exists p; auto]. destruct (filter_loop f d) as [d' r]. cbn [fst dget] in *.
  destruct (eqb k0 k); [|apply IH]. intros E. injection E as <-. exists v. split; [reflexivity|]. clear IH. revert ys L. induction v as [|[x y] v IV]; intros [|z ys] L; try discriminate L; cbn; [reflexivity|].
  f_equal. apply IV. cbn in L. lia.
Qed.
Lemma filter_angles f x r k p d : filter_loop f (dc_data d) = (x, r) -> get_pc (set_data d x) k "radians" = Ok p -> exists p0, get_pc d k "radians" = Ok p0 /\ map fst p = map fst p0.
Proof.
  intros E. change (get_pc (set_data d x) k "radians") with (dgetr k x). change (get_pc d k "radians") with (dgetr k (dc_data d)). unfold dgetr.
  destruct (dget k x) as [q|] eqn:G; [|discriminate]. intros P. injection P as <-.
  replace x with (fst (filter_loop f (dc_data d))) in G by now rewrite E. destruct (filter_get _ _ _ _ G) as (p0 & G0 & M). rewrite G0. exists p0. auto.
Qed.

Lemma fstep_phase f o x : fd_phase f = PNum x -> fd_phase (fst (fstep f o)) = PNum (x + match o with FPhase a _ u => asked a u | _ => 0 end)%R.
Proof.
  intros E. destruct o as [s|y|a np u]; cbn [fstep].
  - unfold scale_fdata. destruct (Rltb s 0); cbn; rewrite E; f_equal; ring.
  - unfold normalize_fdata. destruct (fget_maxval f) as [[[k m]|]|e]; cbn; try (rewrite E; f_equal; ring).
    + destruct (Reqb m 0); [destruct (Rltb y 0); cbn; rewrite E; f_equal; ring|]. unfold scale_fdata. destruct (Rltb (y / m) 0); cbn; rewrite E; f_equal; ring.
    + unfold scale_fdata. destruct (Rltb 0 0); cbn; rewrite E; f_equal; ring.
  - unfold phase_shift_fdata. rewrite E. cbn [phase_add]. destruct (units_cases u) as [[U|U]|[A B]].
    + rewrite U, (asked_rad u U). reflexivity.
    + rewrite U, (asked_deg u U). reflexivity.
    + destruct (check_bad u A B) as (-> & ->). cbn. rewrite E. f_equal. ring.
Qed.
Lemma frun_phase h : forall f x, fd_phase f = PNum x -> fd_phase (frun f h) = PNum (x + fshifts h)%R.
Proof.
  induction h as [|o h IH]; intros f x E; cbn [frun fshifts fold_right]; [rewrite E; f_equal; ring|].
  rewrite (IH _ _ (fstep_phase f o x E)). unfold fshifts. f_equal. destruct o; ring.
Qed.

Lemma phase_val_number p : phase_val p = number_in p.
Proof. induction p as [x|q IH|n x]; cbn; auto. Qed.
Lemma degrees_number f : exists p p', fget_phase_shift f "radians" = Ok p /\ fget_phase_shift f "degrees" = Ok p' /\ number_in p' = (number_in p * (180 / PI))%R.
Proof.
  unfold fget_phase_shift. cbn. destruct (fd_phase f) as [x|q|n x]; do 2 eexists; (split; [reflexivity|]; split; [reflexivity|]); cbn; rewrite ?phase_val_number; reflexivity.
Qed.
Lemma shift_number f a np u p : lower u = "radians"%string \/ lower u = "degrees"%string -> fget_phase_shift f "radians" = Ok p ->
  snd (phase_shift_fdata f a np u) = Ok tt -> exists p', fget_phase_shift (fst (phase_shift_fdata f a np u)) "radians" = Ok p' /\ number_in p' = (number_in p + asked a u)%R.
Proof.
  intros U P. change (Ok (fd_phase f) = Ok p) in P. injection P as P. subst p.
  change (fget_phase_shift (fst (phase_shift_fdata f a np u)) "radians") with (Ok (fd_phase (fst (phase_shift_fdata f a np u)))).
  unfold phase_shift_fdata.
  assert (Ck : check_angle_units (lower u) = Ok tt) by (destruct U as [-> | ->]; reflexivity). rewrite Ck.
  assert (As : asked a u = if String.eqb (lower u) "degrees" then deg2rad a else a).
  { destruct U as [U|U]; [rewrite (asked_rad u U)|rewrite (asked_deg u U)]; rewrite U; reflexivity. }
  rewrite <- As. destruct (fd_phase f) as [x|q|n x]; cbn [phase_add].
  - intros _. exists (PNum (x + asked a u)). split; reflexivity.
  - destruct (np || String.eqb (lower u) "degrees"); cbn [fst snd]; [intros _|discriminate].
    eexists. split; [reflexivity|]. cbn. rewrite phase_val_number. reflexivity.
  - intros _. eexists. split; reflexivity.
Qed.

(** ** Options given twice *)
Lemma existsb_present ks (kw : list (string * val)) : (exists n, In n ks /\ dget n kw <> None) -> existsb (fun n => dmem n kw) ks = true.
Proof.
  intros (n & I & N). apply existsb_exists. exists n. split; [exact I|]. unfold dmem. destruct (dget n kw); [reflexivity|congruence].
Qed.
Lemma no_clash_raise ks kw : (exists n, In n ks /\ dget n kw <> None) -> no_clash ks kw = Raise TypeError.
Proof. intros H. unfold no_clash. rewrite existsb_present by exact H. reflexivity. Qed.

Section Fits.
Variable kev : code -> code.
Hypothesis KEV : sound_kev kev.

Lemma least_squares_clash F D guess bounds chunk save kw fs free x0 bs : matching F D -> ff_free_symbols F = Ok free -> free <> [] ->
  in_order free guess x0 -> bounds_ok free bounds bs -> (exists n, In n (ls_reserved bounds) /\ dget n kw <> None) ->
  forall optimiser, snd (least_squares_fit kev optimiser F D guess bounds chunk save None kw fs) = Raise TypeError.
Proof.
  intros Ma Ef NE G B K optimiser. destruct (cost_of_made kev KEV F D free chunk save fs Ma Ef NE) as (lib & Ec & _).
  unfold least_squares_fit. rewrite Ef. destruct free as [|s free]; [congruence|]. rewrite Ec. cbn [bind snd].
  apply x0_of_ok in G. rewrite G. cbn [bind]. rewrite (bounds_res _ _ _ B). cbn [bind].
  rewrite no_clash_raise by (destruct bounds; exact K). reflexivity.
Qed.
Lemma basinhop_clash optimiser free obj guess bounds own kw x0 bo : in_order free guess x0 -> bound_option free bounds bo ->
  dget "minimizer_kwargs"%string kw = None -> (exists n, In n bh_reserved /\ dget n kw <> None) ->
  basinhop optimiser free obj guess bounds own kw = (kw, Raise TypeError).
Proof.
  intros G B Mk K. unfold basinhop. apply x0_of_ok in G. rewrite G.
  assert (Eb : match bounds with
             | Some (Some b) => do l <- x0_of free b; Ok [("bounds"%string, VBounds (Some l))]
             | Some None => Ok [("bounds"%string, VBounds None)]
             | None => Ok []
             end = Ok bo).
  { destruct bounds as [[d|]|]; cbn [bound_option] in B; [destruct B as (l & -> & I); apply x0_of_ok in I; rewrite I; reflexivity|subst; reflexivity|subst; reflexivity]. }
  rewrite Eb. unfold take_minimizer. rewrite Mk. cbn [bind]. rewrite no_clash_raise by exact K. reflexivity.
Qed.
Lemma basinhopping_clash F D guess bounds own chunk save kw fs free x0 bo : matching F D -> ff_free_symbols F = Ok free -> free <> [] ->
  in_order free guess x0 -> bound_option free bounds bo -> dget "minimizer_kwargs"%string kw = None -> (exists n, In n bh_reserved /\ dget n kw <> None) ->
  forall optimiser, snd (basinhopping_fit kev optimiser F D guess bounds own chunk save None kw fs) = Raise TypeError.
Proof.
  intros Ma Ef NE G B Mk K optimiser. destruct (cost_of_made kev KEV F D free chunk save fs Ma Ef NE) as (lib & Ec & _).
  unfold basinhopping_fit. rewrite Ef. destruct free as [|s free]; [congruence|]. rewrite Ec.
  rewrite (basinhop_clash optimiser (s :: free) (Scalar (call lib)) guess bounds own kw x0 bo G B Mk K). reflexivity.
Qed.
End Fits.

(** ** Key names *)
Lemma upper_letter c p : p = "P"%char \/ p = "S"%char -> (upper_ascii c = p <-> letter c p).
Proof.
  intros [-> | ->]; unfold letter; split.
  - intros H. left. split; [reflexivity|]. destruct c as [[|] [|] [|] [|] [|] [|] [|] [|]]; vm_compute in H; try discriminate H; auto.
  - intros [(_ & [-> | ->])|(E & _)]; [reflexivity|reflexivity|discriminate E].
  - intros H. right. split; [reflexivity|]. destruct c as [[|] [|] [|] [|] [|] [|] [|] [|]]; vm_compute in H; try discriminate H; auto.
  - intros [(E & _)|(_ & [-> | ->])]; [discriminate E|reflexivity|reflexivity].
Qed.
Lemma spells_prefix k pc : In pc four_keys -> (prefix2 k = pc <-> spells k pc).
Proof.
  intros I. assert (X : exists p q, (p = "P"%char \/ p = "S"%char) /\ (q = "P"%char \/ q = "S"%char) /\ pc = String p (String q EmptyString)).
  { destruct I as [<-|[<-|[<-|[<-|[]]]]]; do 2 eexists; (split; [|split; [|reflexivity]]); auto. }
  destruct X as (p & q & Hp & Hq & ->). unfold prefix2, upper. split.
  - intros E. destruct k as [|a [|b rest]]; cbn in E; try discriminate E. injection E as E1 E2. exists a, b, rest, p, q.
    split; [reflexivity|]. split; [apply upper_letter; assumption|]. split; [apply upper_letter; assumption|reflexivity].
  - intros (a & b & rest & p' & q' & -> & La & Lb & E). injection E as <- <-. cbn. apply upper_letter in La; [|exact Hp]. apply upper_letter in Lb; [|exact Hq].
    rewrite La, Lb. destruct (smap upper_ascii rest); reflexivity.
Qed.

(** Two inputs whose keys spell the same combinations in the same order *)
Lemma construct_spelling it it' u : NoDup (map fst it) -> NoDup (map fst it') ->
  Forall2 (fun a b => (exists k k' pc, fst a = KStr k /\ fst b = KStr k' /\ In pc four_keys /\ spells k pc /\ spells k' pc) /\ snd a = snd b) it it' ->
  construct it u true = construct it' u true.
Proof.
  intros N N' H. unfold construct. destruct (check_angle_units u) as [[]|e]; [|reflexivity]. cbn [bind].
  rewrite (dict_of_wf it N), (dict_of_wf it' N'). clear N N'.
  assert (Ck : check_iterable it = check_iterable it').
  { unfold check_iterable, dkeys, dvals. assert (X : forallb good_key (map fst it) = forallb good_key (map fst it') /\ forallb good_val (map snd it) = forallb good_val (map snd it')).
    { induction H as [|a b l l' ((k & k' & pc & A & B & _) & V) H IH]; [split; reflexivity|]. destruct IH as (I1 & I2). cbn [map forallb]. rewrite A, B, V, I1, I2. split; reflexivity. }
    destruct X as (-> & ->). reflexivity. }
  rewrite Ck. destruct (check_iterable it') as [[]|e]; [|reflexivity]. cbn [bind].
  assert (X : forall g : dtype * pts -> dtype * pts, coerce (dmap g (raw_dict it)) = coerce (dmap g (raw_dict it'))).
  { intros g. unfold coerce.
    assert (X : map (fun kv => (key2 (fst kv), snd kv)) (dmap g (raw_dict it)) = map (fun kv => (key2 (fst kv), snd kv)) (dmap g (raw_dict it'))).
    { clear Ck. unfold raw_dict, dmap. rewrite !map_map. cbn [fst snd]. induction H as [|a b l l' ((k & k' & pc & A & B & I & S1 & S2) & V) H IH]; [reflexivity|].
      cbn [map]. rewrite IH, A, B, V. cbn [key_str]. apply (spells_prefix k pc I) in S1. apply (spells_prefix k' pc I) in S2.
      change (key2 k) with (prefix2 k). change (key2 k') with (prefix2 k'). rewrite S1, S2. reflexivity. }
    assert (Y : map key2 (dkeys (dmap g (raw_dict it))) = map key2 (dkeys (dmap g (raw_dict it')))).
    { pose proof (f_equal (map fst) X) as Y. rewrite !map_map in Y. cbn [fst] in Y. unfold dkeys. rewrite !map_map. exact Y. }
    rewrite Y, X. reflexivity. }
  assert (Z : coerce (if String.eqb u "degrees" then to_radians (raw_dict it) else raw_dict it) = coerce (if String.eqb u "degrees" then to_radians (raw_dict it') else raw_dict it')).
  { destruct (String.eqb u "degrees"); [apply X|]. pose proof (X (fun v => v)) as Z. unfold dmap in Z.
    assert (Id : forall l : dict string (dtype * pts), map (fun kv => (fst kv, snd kv)) l = l) by (induction l as [|[? ?] ? E]; cbn; [reflexivity|now rewrite E]).
    rewrite !Id in Z. exact Z. }
  rewrite Z. reflexivity.
Qed.

(** Keys of accepted input *)
Lemma construct_spelled it u d : construct it u true = Ok d -> forall a, In a it -> exists k pc, fst a = KStr k /\ In pc four_keys /\ spells k pc.
Proof.
  intros Co [k v] I. unfold construct in Co. destruct (check_angle_units u) as [[]|e]; [|discriminate]. cbn [bind] in Co.
  unfold check_iterable in Co. destruct (forallb good_key (dkeys (dict_of it)) && forallb good_val (dvals (dict_of it)))%bool eqn:Ck; [|discriminate]. cbn [bind] in Co.
  apply andb_prop in Ck as (Gk & _). rewrite forallb_forall in Gk.
  assert (Ik : In k (dkeys (dict_of it))) by (apply In_dkeys_dict_of; exact (in_map fst it _ I)). pose proof (Gk k Ik) as G. destruct k as [k|]; [|discriminate].
  set (d1 := if String.eqb u "degrees" then to_radians (raw_dict (dict_of it)) else raw_dict (dict_of it)) in Co.
  assert (I1 : In (key2 k) (map key2 (dkeys d1))).
  { apply in_map. assert (E : dkeys d1 = map key_str (dkeys (dict_of it))).
    { unfold d1, to_radians, raw_dict, dmap, dkeys. destruct (String.eqb u "degrees"); rewrite ?map_map; reflexivity. }
    rewrite E. exact (in_map key_str _ _ Ik). }
  cbn [fst]. exists k, (key2 k). split; [reflexivity|].
  assert (J : In (key2 k) four_keys).
  { unfold coerce in Co. destruct (set_eqb (map key2 (dkeys d1)) oblique_keys) eqn:O.
    - apply oblique_pattern_spec in O. apply O. exact I1.
    - destruct (existsb (set_eqb (map key2 (dkeys d1))) normal_pairs) eqn:P; [|discriminate]. apply normal_pattern_spec in P.
      destruct P as (a & b & Pa & Pb & Q). apply Q in I1. destruct I1 as [-> | ->]; [destruct Pa as [-> | ->]|destruct Pb as [-> | ->]]; cbn; auto 6. }
  split; [exact J|]. apply spells_prefix; [exact J|reflexivity].
Qed.
