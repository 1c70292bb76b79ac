(** C137: the Fourier transform of data with missing values. *)
From Coq Require Import String ZArith List Bool Lia.
From Flocq Require Import Core IEEE754.BinarySingleNaN.
From Verif Require Import PyBase NanModel GapModel SpecGap GapProofs.
Import ListNotations.
Local Open Scope nat_scope.

(* ================================================================== *)
(** * C137 *)

(** The default interpolation (and 'quadratic'): one missing value, and every
    coefficient of its polarization is nan. *)
Theorem C137_cubic : forall fit grid wave per_turn d M fd, full_grid grid ->
  transform64 (spline fit) grid wave per_turn d M = Ok fd ->
  Forall2 (fun kp kr => fst kp = fst kr /\ (has_gap (snd kp) -> all_lost (snd kr))) d fd.
Proof.
  intros fit grid wave per_turn d M fd G E. pose proof (row_of _ _ _ _ d M fd E) as W. pose proof (lost_row _ _ _ _ d M fd E) as L. clear E.
  induction L as [|[k p] [k' row] d fd (E1 & E2) _ IH]; constructor.
  - split; [exact E1|]. intros Gp. inversion W as [|? ? ? ? (_ & W1) _]; subst. cbn [snd] in *.
    destruct p as [|a p]; [destruct Gp as (? & [])|].
    destruct (spline fit (a :: p)) as [f|e] eqn:F.
    + destruct (grid (length (a :: p))) as [|g gs] eqn:Gr; [pose proof (G (length (a :: p))) as X; rewrite Gr in X; discriminate X|].
      apply (E2 f g eq_refl); [left; reflexivity|]. exact (spline_gap fit (a :: p) f Gp F g).
    + inversion W1 as [Z|m z ms zs Em]; subst; [constructor|]. unfold entry in Em. rewrite F in Em. discriminate Em.
  - apply IH. inversion W; subst; assumption.
Qed.
Print Assumptions C137_cubic.

(** Linear interpolation: a missing value either spoils its polarization in the same
    way, or goes unnoticed: the coefficients are those for any other value in its
    place. *)
Theorem C137_linear : forall grid wave per_turn l x r M row,
  mapM (entry linear grid wave per_turn (l ++ (x, B754_nan) :: r)) (freqs M) = Ok row ->
  all_lost row \/ forall y, mapM (entry linear grid wave per_turn (l ++ (x, y) :: r)) (freqs M) = Ok row.
Proof.
  intros grid wave per_turn l x r M row E.
  assert (F : forall y, linear (l ++ (x, y) :: r) = Ok (segment (l ++ (x, y) :: r))) by (intros y; destruct l; reflexivity).
  destruct (linear_gap l x r grid) as [(g & I & N)|H].
  - left. apply mapM_Ok in E. unfold all_lost. revert E. generalize (freqs M) as ms. intros ms E.
    induction E as [|m z ms row E _ IH]; constructor; [|exact IH]. exact (entry_lost linear grid wave per_turn _ m z _ g E (F B754_nan) I N).
  - right. intros y. rewrite <- E. symmetry. revert E. generalize (freqs M) as ms. intros ms _.
    assert (S : forall m, entry linear grid wave per_turn (l ++ (x, B754_nan) :: r) m = entry linear grid wave per_turn (l ++ (x, y) :: r) m).
    { intros m. apply entry_same; [rewrite !app_length; reflexivity| |exists (segment (l ++ (x, B754_nan) :: r)); apply F].
      intros f Ef. rewrite F in Ef. injection Ef as <-. exists (segment (l ++ (x, y) :: r)). split; [apply F|]. intros g I. apply H, I. }
    induction ms as [|m ms IH]; [reflexivity|]. cbn [mapM]. rewrite S, IH. reflexivity.
Qed.
Print Assumptions C137_linear.

(** Data taken at the sampling angles themselves: no missing value goes unnoticed. *)
Theorem C137_nodes : forall grid wave per_turn d M fd, transform64 linear grid wave per_turn d M = Ok fd ->
  Forall2 (fun kp kr => fst kp = fst kr /\
    (map fst (snd kp) = grid (length (snd kp)) -> increasing (map fst (snd kp)) -> 2 <= length (snd kp) -> has_gap (snd kp) -> all_lost (snd kr))) d fd.
Proof.
  intros grid wave per_turn d M fd E. apply lost_row in E. induction E as [|[k p] [k' row] d fd (E1 & E2) _ IH]; constructor; [|exact IH].
  split; [exact E1|]. cbn [snd] in *. intros Gr Inc L Gp. destruct (linear_nodes p Inc L Gp) as (g & I & N).
  rewrite Gr in I. apply (E2 (segment p) g); [|exact I|exact N]. destruct p; [cbn in L; lia|reflexivity].
Qed.
Print Assumptions C137_nodes.

(** The coefficients of a polarization depend on the data of this polarization only,
    whatever the interpolation: missing values elsewhere do not matter. *)
Theorem C137_others : forall interp grid wave per_turn d d' M fd fd', 
  transform64 interp grid wave per_turn d M = Ok fd -> transform64 interp grid wave per_turn d' M = Ok fd' ->
  NoDup (map fst d) -> NoDup (map fst d') -> forall k p row row', In (k, p) d -> In (k, p) d' -> In (k, row) fd -> In (k, row') fd' -> row = row'.
Proof. intros interp grid wave per_turn d d' M fd fd' E E' N N' k p row row'. exact (same_row interp grid wave per_turn d d' M fd fd' E E' k p row row' N N'). Qed.
Print Assumptions C137_others.

(** ** Cases *)
Definition dbl (m e : Z) : b64 := binary_normalize 53 1024 _ _ mode_NE m e false.
(** The doubles of np.linspace(0, 2*np.pi, 5, endpoint=False) and of 1/2/np.pi. *)
Definition grid5 (n : nat) : list b64 :=
  if Nat.eqb n 5 then [zero; dbl 176855943800711 (-47); dbl 176855943800711 (-46); dbl 530567831402133 (-47); dbl 176855943800711 (-45)] else repeat zero n.
Definition turn64 : b64 := dbl 5734161139222659 (-55).
(** Waves of frequency 0 only. *)
Definition flat (m : Z) (x : b64) : b64 * b64 := (one, zero).
(** Five points; the third value is missing, next to no sampling angle. *)
Definition with_value (y : b64) : list (b64 * b64) := [(zero, one); (dbl 1 (-3), one); (dbl 1 (-2), y); (dbl 3 (-3), one); (dbl 4 0, dbl 3 0)].
(** The first value is missing. *)
Definition without_first : list (b64 * b64) := [(zero, B754_nan); (dbl 1 (-3), one); (dbl 1 (-2), one); (dbl 3 (-3), one); (dbl 4 0, dbl 3 0)].

(** What is seen of a coefficient: nan, or mantissa and exponent. *)
Inductive seen := Nan | Number (m e : Z).
Definition see (x : b32) : seen :=
  match x with B754_nan => Nan | B754_finite s m e _ => Number (cond_Zopp s (Zpos m)) e | B754_zero _ => Number 0 0 | B754_infinity s => Number (if s then -1 else 1) 1000 end.
Definition look (r : res (list (string * list (b32 * b32)))) : option (list (string * list (seen * seen))) :=
  match r with Ok fd => Some (map (fun kr => (fst kr, map (fun z => (see (fst z), see (snd z))) (snd kr))) fd) | Raise _ => None end.
Example C137_case : full_grid grid5 /\ has_gap (with_value B754_nan) /\ has_gap without_first /\
  look (transform64 linear grid5 flat turn64 [("PP"%string, with_value B754_nan); ("PS"%string, without_first)] 0) =
    Some [("PP"%string, [(Number 9316039 (-22), Number 0 0)]); ("PS"%string, [(Nan, Nan)])] /\
  look (transform64 linear grid5 flat turn64 [("PP"%string, with_value one)] 0) = Some [("PP"%string, [(Number 9316039 (-22), Number 0 0)])] /\
  look (transform64 (spline linear) grid5 flat turn64 [("PP"%string, with_value B754_nan); ("PS"%string, with_value one)] 0) =
    Some [("PP"%string, [(Nan, Nan)]); ("PS"%string, [(Number 9316039 (-22), Number 0 0)])].
Proof.
  split. { intros n. unfold grid5. destruct (Nat.eqb_spec n 5) as [-> |]; [reflexivity|apply repeat_length]. }
  split. { exists (dbl 1 (-2)). right; right; left. reflexivity. }
  split. { exists zero. left. reflexivity. }
  split; [vm_compute; reflexivity|]. split; vm_compute; reflexivity.
Qed.
(** Points at the sampling angles. *)
Definition at_nodes : list (b64 * b64) := combine (grid5 5) [one; one; one; B754_nan; one].
Example C137_case_nodes : map fst at_nodes = grid5 (length at_nodes) /\ increasing (map fst at_nodes) /\ 2 <= length at_nodes /\ has_gap at_nodes /\
  look (transform64 linear grid5 flat turn64 [("PP"%string, at_nodes)] 0) = Some [("PP"%string, [(Nan, Nan)])].
Proof.
  split; [reflexivity|]. split; [repeat split; vm_compute; reflexivity|]. split; [cbn; lia|]. split.
  - exists (dbl 530567831402133 (-47)). right; right; right; left. reflexivity.
  - vm_compute. reflexivity.
Qed.
