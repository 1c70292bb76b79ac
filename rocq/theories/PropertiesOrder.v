(** Property C116: a higher Fourier order adds coefficients and changes none. *)
From Coq Require Import String List Arith ZArith Reals Lra Lia QArith.
From Coquelicot Require Import Complex.
From Verif Require Import PyBase CBase Expr DataModel SpecData DataProofs DataProofs2 FDataModel SpecFData FDataProofs
  FormModel SpecForm FitModel SpecFit InterpModel InterpProofs InterpProofs2 InterpProofs3 OrderProofs.
Import ListNotations.
Local Open Scope nat_scope.

Theorem C116_data : forall interp d M M' f', reachable d -> M <= M' -> dat_to_fdat interp d M' = Ok f' ->
  exists f, dat_to_fdat interp d M = Ok f /\ fget_keys f = fget_keys f' /\ fget_M f = M /\
    forall k v', fget_pc f' k = Ok v' -> exists v, fget_pc f k = Ok v /\ length v = 2 * M + 1 /\
      forall m, (Z.abs m <= Z.of_nat M)%Z -> coef M v m = coef M' v' m.
Proof. exact data_orders. Qed.
Print Assumptions C116_data.

(** Whether data can be transformed does not depend on the order. *)
Theorem C116_any_order : forall interp d M M', reachable d -> is_ok (dat_to_fdat interp d M) -> is_ok (dat_to_fdat interp d M').
Proof. exact data_any_order. Qed.
Print Assumptions C116_any_order.

Theorem C116_formula : forall ev f M M' F', (exists it, form_construct it = Ok f) -> M <= M' -> form_to_fform ev f M' = Ok F' ->
  exists F, form_to_fform ev f M = Ok F /\ ff_get_keys F = ff_get_keys F' /\ ff_M F = M /\
    forall k c', ff_get_pc F' k = Ok c' -> exists c, ff_get_pc F k = Ok c /\ length c = 2 * M + 1 /\
      forall m, (Z.abs m <= Z.of_nat M)%Z -> nth (Z.to_nat (m + Z.of_nat M)) c (num 0) = nth (Z.to_nat (m + Z.of_nat M')) c' (num 0).
Proof. exact form_orders. Qed.
Print Assumptions C116_formula.

(** Hence the cost at any values of the parameters can only grow with the order. *)
Theorem C116_misfit : forall ev interp f d M M' F' D', (exists it, form_construct it = Ok f) -> reachable d -> M <= M' ->
  form_to_fform ev f M' = Ok F' -> dat_to_fdat interp d M' = Ok D' ->
  exists F D, form_to_fform ev f M = Ok F /\ dat_to_fdat interp d M = Ok D /\ forall rho, (misfit F D rho <= misfit F' D' rho)%R.
Proof. exact misfit_orders. Qed.
Print Assumptions C116_misfit.

Definition malus : form := [("PP"%string, EMul [ESym (mksym "a" (Some true)); EPow (ECos (ESym phi)) 2])].
Example C116_case : (exists it, form_construct it = Ok malus) /\ reachable spike /\
  is_ok (form_to_fform (fun e => e) malus 4) /\ is_ok (dat_to_fdat linear spike 4) /\ is_ok (form_to_fform (fun e => e) malus 1) /\
  match form_to_fform (fun e => e) malus 4 with
  | Ok F => match ff_get_pc F "PP" with Ok c => nth 6 c (num 0) = EMul [ESym (mksym "a" (Some true)); ENum (1 # 4) 0] | _ => False end
  | _ => False end.
Proof.
  split; [exists [(KStr "PP"%string, Some (EMul [ESym (mksym "a" (Some true)); EPow (ECos (ESym phi)) 2]))]; reflexivity|]. split; [exact spike_reach|].
  split; [eexists; vm_compute; reflexivity|]. split.
  { 
    destruct (resampled_coefs linear spike 4 spike_reach) as (f0 & E & _); [|exists f0; exact E].
    intros k p H. rewrite (spike_pcs k p H). split; [rewrite spike_length; lia|]. eexists. apply linear_strict; [discriminate|exact spike_strict]. }
  split; [eexists; vm_compute; reflexivity|]. vm_compute. reflexivity.
Qed.
