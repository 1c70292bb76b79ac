(** Substituting in tensors or in the loaded Fourier formula. *)
From Coq Require Import String List Arith ZArith Bool Lia Reals QArith Qreals Lra.
From Coquelicot Require Import Complex.
Import ListNotations.
From Verif Require Import PyBase CBase Expr ExprProofs SpecForm FormModel FormProofs2 TensorInst TensorProofs UtilModel SpecFormgen FormgenModel
  FourierBase FformgenModel SpecFformgen FormgenProofs FormgenProofs4 FormgenThms FormgenThms2 FformgenProofs5 FformgenThms PropertiesFformgen
  ParamProofs2 SpecSubs SubsProofs.
From Verif Require Import SpecTensor TensorModel.
Local Open Scope nat_scope.

Section Subs.
Context (ev : expr -> expr) (EV : sound_ev ev).

Lemma map_snd_freqs (f : expr -> expr) (r : list expr) : length r = 33 ->
  map (fun mc : Z * expr => f (snd mc)) (combine (freqs 16) r) = map f r.
Proof. intros L. apply map_snd_combine. rewrite length_freqs. rewrite L. reflexivity. Qed.

Lemma fformgen_subs expand srepr parse prefix fs d q sa : (forall e, parse (srepr e) = Ok e) -> declared_subs sa -> good_tensors d q ->
  transforms_for sa prefix fs ->
  exists F F' F1, saved_for ev expand srepr parse prefix fs d q F /\
    saved_for ev expand srepr parse prefix fs (entries_subs (subs_seq ev sa) d) (entries_subs (subs_seq ev sa) q) F' /\
    ff_subs ev F sa = Ok F1 /\ ff_get_keys F1 = ff_get_keys F' /\ ff_M F1 = ff_M F' /\
    forall inp out, exists r1 r', ff_get_pc F1 (key inp out) = Ok r1 /\ ff_get_pc F' (key inp out) = Ok r' /\ length r1 = 33 /\
      forall rho, respects rho -> map (eval rho) r1 = map (eval rho) r'.
Proof.
  intros P D G T. pose proof G as (Sd & Sq & Rd & Rq). destruct (T rho1 rho1_respects) as (th & T1 & _).
  destruct (contracted_rows ev expand EV rho1 th prefix fs d q rho1_respects T1 Sd Sq Rd Rq) as (D0 & E0 & K0 & _).
  destruct (contracted_subs ev EV expand prefix fs d q sa D0 D G T E0) as (D1 & E1 & K1 & V).
  assert (Len : forall DD : list (string * list expr), dkeys DD = ["PP"; "PS"; "SP"; "SS"]%string ->
    (forall inp out, exists r, dget (key inp out) DD = Some r /\ length r = 33) -> forall k r, In (k, r) DD -> length r = 33).
  { intros DD K H k r I.
    assert (W : wf_dict DD) by (unfold wf_dict; rewrite K; repeat constructor; simpl; intuition discriminate).
    assert (Ik : In k (dkeys DD)) by (apply (in_map fst) in I; exact I). apply (In_dget _ _ _ W) in I.
    rewrite K in Ik. simpl in Ik.
    destruct Ik as [<-|[<-|[<-|[<-|[]]]]];
      [destruct (H Pin Pin) as (u & X & L)|destruct (H Pin Sin) as (u & X & L)|destruct (H Sin Pin) as (u & X & L)|destruct (H Sin Sin) as (u & X & L)];
      cbn [key] in X; congruence. }
  exists (mkff (dmap (mkrow true) D0) 16), (mkff (dmap (mkrow true) D1) 16).
  set (F := mkff (dmap (mkrow true) D0) 16).
  assert (Sy : symbolic F).
  { intros k r I. unfold F in I. cbn [ff_rows] in I. unfold dmap in I. apply in_map_iff in I as ([k0 r0] & E & _). injection E as _ <-. reflexivity. }
  exists (map_rows (fun _ e => subs_seq ev sa e) F). split; [|split; [|split; [|split; [|split]]]].
  - exists (dmap (map srepr) D0). split; [unfold generate_contracted_fourier_transforms; rewrite E0; reflexivity|].
    apply loaded_rows; auto. apply Len; auto. intros inp out. destruct (V inp out) as (r & r' & X & _ & L & _). exists r. auto.
  - exists (dmap (map srepr) D1). split; [unfold generate_contracted_fourier_transforms; rewrite E1; reflexivity|].
    apply loaded_rows; auto. apply Len; auto. intros inp out. destruct (V inp out) as (r & r' & _ & X & _ & L & _). exists r'. auto.
  - unfold ff_subs. rewrite all_cells_symbolic by exact Sy. reflexivity.
  - unfold ff_get_keys, map_rows, F. cbn [ff_rows]. rewrite !dkeys_dmap. rewrite K0, K1. reflexivity.
  - reflexivity.
  - intros inp out. destruct (V inp out) as (r & r' & X & X' & L & L' & H). exists (map (subs_seq ev sa) r), r'.
    split; [|split; [|split; [rewrite map_length; exact L|exact H]]].
    + unfold ff_get_pc, dgetr, map_rows, F. cbn [ff_rows ff_M]. rewrite !dget_dmap, X. cbn [option_map bind r_cells].
      rewrite map_snd_freqs by exact L. reflexivity.
    + unfold ff_get_pc, dgetr. cbn [ff_rows]. rewrite dget_dmap, X'. reflexivity.
Qed.
End Subs.
