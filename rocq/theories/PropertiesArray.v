(** C133: arrays handed to the compiled cost and model functions. *)
From Coq Require Import String List Arith ZArith Bool Lia Reals QArith Qreals Lra.
From Coquelicot Require Import Complex.
From Flocq Require Import Core IEEE754.Binary IEEE754.Bits.
Import ListNotations.
From Verif Require Import PyBase CBase Expr ExprProofs SpecForm SpecFData FDataModel FormModel FitModel SpecFit FitProofs FitProofs2 FitProofs3 FitProofs5 PropertiesFit
  SpecParts PartProofs ArrayModel SpecArray ArrayProofs.
Local Open Scope nat_scope.

(** The cost function, for arrays of doubles lying one directly behind the other. *)
Theorem C133_contiguous_partial : forall kev F D free chunk save fs a xs rho, sound_kev kev -> matching F D -> argument_list F free -> ff_rows F <> [] ->
  well_formed a -> kind a = Float64 -> contiguous a -> shows a xs -> length xs = length free -> assigns free xs rho ->
  exists lib, gen_cost_func kev F D (Some free) chunk save fs = (save_lib save lib fs, Ok lib) /\ cost_func lib a = Some (misfit F D rho).
Proof.
  intros kev F D free chunk save fs a xs rho KEV Ma Ar NE W K Ct Sh L A.
  destruct (cost_ok kev KEV F D free chunk save fs Ma Ar (fun _ => NE)) as (lib & E & H). exists lib. split; [exact E|].
  destruct (pointed_contiguous a xs W K Ct Sh) as (rest & P). unfold cost_func. rewrite P. apply H; [rewrite app_length; lia|].
  intros i s N. rewrite app_nth1; [exact (A i s N)|]. rewrite L. apply nth_error_Some. congruence.
Qed.
Print Assumptions C133_contiguous_partial.

(** Converting the array first makes the cost right for every array, and the model
    function does so itself. *)
Theorem C133_converted : forall kev F D free chunk save fs a xs rho, sound_kev kev -> matching F D -> argument_list F free -> ff_rows F <> [] ->
  well_formed a -> moderate a -> shows a xs -> length xs = length free -> assigns free xs rho ->
  exists lib, gen_cost_func kev F D (Some free) chunk save fs = (save_lib save lib fs, Ok lib) /\ cost_func lib (astype_float a) = Some (misfit F D rho).
Proof.
  intros kev F D free chunk save fs a xs rho KEV Ma Ar NE W Mo Sh L A.
  destruct (cost_ok kev KEV F D free chunk save fs Ma Ar (fun _ => NE)) as (lib & E & H). exists lib. split; [exact E|].
  destruct (shows_astype a xs W Mo Sh) as (_ & _ & _ & rest & P). unfold cost_func. rewrite P. apply H; [rewrite app_length; lia|].
  intros i s N. rewrite app_nth1; [exact (A i s N)|]. rewrite L. apply nth_error_Some. congruence.
Qed.
Print Assumptions C133_converted.
Theorem C133_model : forall kev F n free, sound_kev kev -> (0 < n)%Z -> formula_ok F -> parts_taken kev F -> ff_free_symbols F = Ok free ->
  exists fd fs, gen_model_func kev F n = Ok (fd, fs) /\
    forall k r m a xs rho, In (k, r) (ff_rows F) -> In m (freqs (ff_M F)) -> well_formed a -> moderate a -> shows a xs -> length xs = length free -> assigns free xs rho ->
      model_func fd a k m = Ok (Some (eval rho (fcell (ff_M F) r m))).
Proof.
  intros kev F n free KEV Pn OK Pt Fr. destruct (C53_model kev F n free KEV Pn OK Pt Fr) as (fd & fs & E & H). exists fd, fs. split; [exact E|].
  intros k r m a xs rho I J W Mo Sh L A. destruct (shows_astype a xs W Mo Sh) as (_ & _ & _ & rest & P). unfold model_func. rewrite P.
  apply H; [exact I|exact J|rewrite app_length; lia|]. intros i s N. rewrite app_nth1; [exact (A i s N)|]. rewrite L. apply nth_error_Some. congruence.
Qed.
Print Assumptions C133_model.

(** What the cost function computes in every case: the cost of the doubles found
    from the first element on, whatever the array shows. *)
Theorem C133_memory : forall kev F D free chunk save fs a ys, sound_kev kev -> matching F D -> argument_list F free -> ff_rows F <> [] ->
  length ys = length free -> (forall i y, nth_error ys i = Some y -> exists w, nth_error (buffer a) (start a + i) = Some w /\ double w = Some y) ->
  exists lib, gen_cost_func kev F D (Some free) chunk save fs = (save_lib save lib fs, Ok lib) /\ cost_func lib a = Some (misfit F D (reading free ys)).
Proof.
  intros kev F D free chunk save fs a ys KEV Ma Ar NE L Y.
  destruct (cost_ok kev KEV F D free chunk save fs Ma Ar (fun _ => NE)) as (lib & E & H). exists lib. split; [exact E|].
  destruct (doubles_prefix (skipn (start a) (buffer a)) ys) as (rest & P); [intros i y N; rewrite nth_error_skipn; exact (Y i y N)|].
  unfold cost_func, pointed. rewrite P. apply H; [rewrite app_length; lia|].
  intros i s N. rewrite app_nth1; [|rewrite L; apply nth_error_Some; congruence]. apply (reading_assigns free ys (proj1 Ar)); [lia|exact N].
Qed.
Print Assumptions C133_memory.

(** A cost is a number only if every number the code reads is one: a nan or an infinity
    is not passed over. *)
Theorem C133_finite : forall lib a c, cost_func lib a = Some c -> forall e i, In e lib -> In i (kvars e) ->
  exists w r, nth_error (buffer a) (start a + i) = Some w /\ double w = Some r.
Proof. exact called_finite. Qed.
Print Assumptions C133_finite.

(** 1.0 and 0.0, and the integer 1 *)
Definition w1 : Z := 4607182418800017408%Z.
Lemma double_aux w s m e : binary_float_of_bits_aux 52 11 w = F754_finite s m e -> double w = Some (FF2R radix2 (F754_finite s m e)).
Proof.
  intros E. unfold double, b64_of_bits, binary_float_of_bits. rewrite is_finite_FF2B, B2R_FF2B. rewrite E. reflexivity.
Qed.
Lemma double_w1 : double w1 = Some 1%R.
Proof.
  rewrite (double_aux w1 false 4503599627370496 (-52)) by (vm_compute; reflexivity). f_equal. unfold FF2R, F2R. cbn [Fnum Fexp cond_Zopp].
  change 4503599627370496%Z with (2 ^ 52)%Z. change (IZR (2 ^ 52)) with (bpow radix2 52). rewrite <- bpow_plus. reflexivity.
Qed.
Lemma double_0 : double 0 = Some 0%R.
Proof. reflexivity. Qed.
Lemma double_int1 : exists y, double 1 = Some y /\ (y < 1)%R.
Proof.
  exists (bpow radix2 (-1074)). split.
  - rewrite (double_aux 1 false 1 (-1074)) by (vm_compute; reflexivity). f_equal. unfold FF2R, F2R. cbn [Fnum Fexp cond_Zopp]. apply Rmult_1_l.
  - change 1%R with (bpow radix2 0). apply bpow_lt. reflexivity.
Qed.

(** Every second element of an array, and integers: arrays showing the numbers 1 and 0,
    for which the cost is 0; the cost function returns other values, without an error. *)
Definition column : array := mkarray [w1; w1; 0%Z; w1] Float64 0 2 2.
Definition integers : array := mkarray [1%Z; 0%Z] Int64 0 1 2.
(** A part of a longer array, with one number for two parameters. *)
Definition short : array := mkarray [w1; w1] Float64 0 1 1.
Lemma F12_arguments : argument_list F12 [sa; sb].
Proof. apply free_argument_list. reflexivity. Qed.
Lemma small_formed ws k s t n : (forall w, In w ws -> (0 <= w < 2 ^ 64)%Z) ->
  (forall i, i < n -> (0 <= Z.of_nat s + Z.of_nat i * t < Z.of_nat (length ws))%Z) -> well_formed (mkarray ws k s t n).
Proof. intros H1 H2. split; assumption. Qed.
Lemma column_shows : well_formed column /\ shows column [1; 0]%R.
Proof.
  split.
  - apply small_formed; [intros w I; repeat destruct I as [<-|I]; try contradiction; unfold w1; lia|]. intros i I. cbn [length]. lia.
  - split; [reflexivity|]. intros i x E. destruct i as [|[|i]]; [| |destruct i; discriminate E]; cbn in E; injection E as <-; [exact double_w1|exact double_0].
Qed.
Lemma integers_show : well_formed integers /\ moderate integers /\ shows integers [1; 0]%R.
Proof.
  split; [|split].
  - apply small_formed; [intros w I; repeat destruct I as [<-|I]; try contradiction; lia|]. intros i I. cbn [length]. lia.
  - intros _ i x I E. destruct i as [|[|i]]; [| |cbn in I; lia]; change (Some (IZR 1) = Some x) in E || change (Some (IZR 0) = Some x) in E; injection E as <-; rewrite <- abs_IZR, (pow_IZR 2 53); apply IZR_lt; reflexivity.
  - split; [reflexivity|]. intros i x E. destruct i as [|[|i]]; [| |destruct i; discriminate E]; cbn in E; injection E as <-; reflexivity.
Qed.
Theorem C133_views_refuted : forall kev, sound_kev kev -> exists lib,
  snd (gen_cost_func kev F12 D12 (Some [sa; sb]) false None []) = Ok lib /\ matching F12 D12 /\
  well_formed column /\ kind column = Float64 /\ shows column [1; 0]%R /\ misfit F12 D12 (reading [sa; sb] [1; 0]%R) = 0%R /\ cost_func lib column = Some 4%R.
Proof.
  intros kev KEV. destruct (C133_memory kev F12 D12 [sa; sb] false None [] column [1; 1]%R KEV F12_matching F12_arguments) as (lib & E & H); [discriminate|reflexivity| |].
  { intros i y N. destruct i as [|[|i]]; [| |destruct i; discriminate N]; cbn in N; injection N as <-; exists w1; (split; [reflexivity|exact double_w1]). }
  exists lib. rewrite E. split; [reflexivity|]. split; [exact F12_matching|]. destruct column_shows as [W S]. split; [exact W|]. split; [reflexivity|]. split; [exact S|].
  split; [rewrite (F12_misfit _ 1 0) by reflexivity; ring|]. rewrite H, (F12_misfit _ 1 1) by reflexivity. f_equal. ring.
Qed.
Print Assumptions C133_views_refuted.
Theorem C133_integers_refuted : forall kev, sound_kev kev -> exists lib c,
  snd (gen_cost_func kev F12 D12 (Some [sa; sb]) false None []) = Ok lib /\
  well_formed integers /\ moderate integers /\ shows integers [1; 0]%R /\ misfit F12 D12 (reading [sa; sb] [1; 0]%R) = 0%R /\ cost_func lib integers = Some c /\ (0 < c)%R.
Proof.
  intros kev KEV. destruct double_int1 as (y & Dy & Ly).
  destruct (C133_memory kev F12 D12 [sa; sb] false None [] integers [y; 0]%R KEV F12_matching F12_arguments) as (lib & E & H); [discriminate|reflexivity| |].
  { intros i z N. destruct i as [|[|i]]; [| |destruct i; discriminate N]; cbn in N; injection N as <-;
      [exists 1%Z; split; [reflexivity|exact Dy]|exists 0%Z; split; [reflexivity|exact double_0]]. }
  exists lib, ((y + 2 * 0 - 1) ^ 2)%R. rewrite E. split; [reflexivity|]. destruct integers_show as (W & Mo & S). split; [exact W|]. split; [exact Mo|]. split; [exact S|].
  split; [rewrite (F12_misfit _ 1 0) by reflexivity; ring|]. split; [rewrite H, (F12_misfit _ y 0) by reflexivity; reflexivity|]. nra.
Qed.
Print Assumptions C133_integers_refuted.
(** An array that is too short is not noticed either. *)
Theorem C133_short_refuted : forall kev, sound_kev kev -> exists lib,
  snd (gen_cost_func kev F12 D12 (Some [sa; sb]) false None []) = Ok lib /\ count short = 1 /\ contiguous short /\ shows short [1]%R /\ cost_func lib short = Some 4%R.
Proof.
  intros kev KEV. destruct (C133_memory kev F12 D12 [sa; sb] false None [] short [1; 1]%R KEV F12_matching F12_arguments) as (lib & E & H); [discriminate|reflexivity| |].
  { intros i y N. destruct i as [|[|i]]; [| |destruct i; discriminate N]; cbn in N; injection N as <-; exists w1; (split; [reflexivity|exact double_w1]). }
  exists lib. rewrite E. split; [reflexivity|]. split; [reflexivity|]. split; [left; reflexivity|]. split.
  { split; [reflexivity|]. intros i x N. destruct i as [|i]; [|destruct i; discriminate N]. cbn in N. injection N as <-. exact double_w1. }
  rewrite H, (F12_misfit _ 1 1) by reflexivity. f_equal. ring.
Qed.
Print Assumptions C133_short_refuted.

(** The hypotheses are met: both arrays, converted, give the cost 0; the model function
    of [Fx] takes an array of integers. *)
Example C133_case : exists lib, snd (gen_cost_func (fun e => e) F12 D12 (Some [sa; sb]) false None []) = Ok lib /\
  cost_func lib (astype_float column) = Some 0%R /\ cost_func lib (astype_float integers) = Some 0%R /\
  exists fd fs, gen_model_func take_parts Fx 1 = Ok (fd, fs) /\ model_func fd integers "PP" 0 = Ok (Some (RtoC 1)).
Proof.
  assert (A : assigns [sa; sb] [1; 0]%R (reading [sa; sb] [1; 0]%R)) by (apply reading_assigns; [apply F12_arguments|cbn; lia]).
  assert (Z0 : misfit F12 D12 (reading [sa; sb] [1; 0]%R) = 0%R) by (rewrite (F12_misfit _ 1 0) by reflexivity; ring).
  destruct column_shows as [W S]. destruct integers_show as (W' & Mo & S').
  destruct (C133_converted (fun e => e) F12 D12 [sa; sb] false None [] column [1; 0]%R _ FitProofs5.id_sound F12_matching F12_arguments
    ltac:(discriminate) W ltac:(discriminate) S eq_refl A) as (lib & E & H).
  destruct (C133_converted (fun e => e) F12 D12 [sa; sb] false None [] integers [1; 0]%R _ FitProofs5.id_sound F12_matching F12_arguments
    ltac:(discriminate) W' Mo S' eq_refl A) as (lib' & E' & H').
  assert (lib' = lib) by congruence. subst lib'. exists lib. split; [rewrite E; reflexivity|]. split; [rewrite H, Z0; reflexivity|]. split; [rewrite H', Z0; reflexivity|].
  destruct (C133_model take_parts Fx 1 [sa; sb] PartProofs.take_parts_sound eq_refl Fx_ok Fx_parts Fx_free) as (fd & fs & G & M). exists fd, fs. split; [exact G|].
  rewrite (M "PP"%string _ 0%Z integers [1; 0]%R (reading [sa; sb] [1; 0]%R) (or_introl eq_refl)); auto.
  right; left; reflexivity.
Qed.
