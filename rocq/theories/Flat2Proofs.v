(** Normal incidence, symbolic formulas (C149). *)
From Coq Require Import String List Arith Lia Reals Lra.
From Coquelicot Require Import Complex.
Import ListNotations.
From Verif Require Import PyBase CBase Expr ExprProofs SpecFormgen SpecFlat FlatProofs.
Local Open Scope nat_scope.

Lemma flat_moment X X' x p i : (forall i j k, i < 2 -> j < 2 -> k < 2 -> X i j k = X' i j k) -> i < 2 ->
  moment3 (turned3 x X) (field 0 p) i = moment3 (turned3 x X') (field 0 p) i.
Proof.
  intros H I. unfold moment3, sum3.
  rewrite (turned3_flat x X X' i 0 0 H), (turned3_flat x X X' i 0 1 H), (turned3_flat x X X' i 1 0 H), (turned3_flat x X X' i 1 1 H) by lia.
  destruct p; cbn [field triple]; rewrite ?sin_0; ring.
Qed.
Lemma flat_source_all E E' M M' Q Q' p x i : flat_same E E' Q Q' -> (forall i j k, i < 2 -> j < 2 -> k < 2 -> M i j k = M' i j k) -> i < 2 ->
  source 0 E M Q p x i = source 0 E' M' Q' p x i.
Proof.
  intros [HE HQ] HM I. unfold source. cbv zeta. rewrite (flat_moment E E' x p i HE I).
  assert (A : cross (k_incident 0) (moment3 (turned3 x M) (field 0 p)) i = cross (k_incident 0) (moment3 (turned3 x M') (field 0 p)) i).
  { destruct i as [|[|i]]; try lia; cbn [cross triple k_incident];
      rewrite ?(flat_moment M M' x p 0 HM), ?(flat_moment M M' x p 1 HM), ?sin_0 by lia; ring. }
  rewrite A. f_equal. f_equal. unfold moment4, sum3.
  rewrite (turned4_flat x Q Q' i 0 0 HQ), (turned4_flat x Q Q' i 0 1 HQ), (turned4_flat x Q Q' i 1 0 HQ), (turned4_flat x Q Q' i 1 1 HQ) by lia.
  destruct p; cbn [field k_incident triple]; rewrite ?cos_0, ?sin_0; ring.
Qed.
Lemma flat_intensity_all E E' M M' Q Q' inp out x : flat_same E E' Q Q' -> (forall i j k, i < 2 -> j < 2 -> k < 2 -> M i j k = M' i j k) ->
  intensity 0 E M Q inp out x = intensity 0 E' M' Q' inp out x.
Proof.
  intros H HM. unfold intensity, detected, transverse, dot3, sum3.
  rewrite !(flat_source_all E E' M M' Q Q' inp x 0 H HM), !(flat_source_all E E' M M' Q Q' inp x 1 H HM) by lia.
  set (a := source 0 E' M' Q' inp x 0). set (b := source 0 E' M' Q' inp x 1). set (c := source 0 E M Q inp x 2). set (c' := source 0 E' M' Q' inp x 2).
  cbn [k_reflected triple]. rewrite cos_0, sin_0.
  destruct out; [apply (f_equal2 Rplus)|]; apply (f_equal (fun z => (Cmod z ^ 2)%R)); ring.
Qed.
