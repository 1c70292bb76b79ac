(** C122: several angles of incidence side by side. *)
From Coq Require Import String List Arith ZArith Bool Lia Reals QArith Qreals.
From Coquelicot Require Import Complex.
Import ListNotations.
From Verif Require Import PyBase CBase Expr ExprProofs SpecForm FormModel TensorInst UtilModel SpecFormgen FormgenModel FformgenModel SpecFformgen
  FformgenProofs FformgenThms PropertiesFormgen PropertiesFformgen SpecStore StoreProofs.
From Verif Require Import SpecTensor TensorModel.
Local Open Scope nat_scope.

(** Generating under one prefix leaves every other file as it was. *)
Theorem C122_frame : forall ev a prefix M fs fs', uncontracted ev a prefix M fs = Ok fs' ->
  forall name, ~ In name (written prefix) -> dget name fs' = dget name fs.
Proof. exact uncontracted_frame. Qed.
Print Assumptions C122_frame.

(** What is contracted under a prefix is what was generated last under it; what was
    in the directory before, and what is generated under other prefixes, does not
    matter. *)
Theorem C122_last : forall ev expand srepr before a p M after fs fs', uncontracted_all ev (before ++ (a, p, M) :: after) fs = Ok fs' ->
  (forall a' p' M', In (a', p', M') after -> p' <> p) ->
  exists gs, uncontracted ev a p M [] = Ok gs /\ forall d q M' nd,
    generate_contracted_fourier_transforms ev expand srepr p fs' d q M' nd = generate_contracted_fourier_transforms ev expand srepr p gs d q M' nd.
Proof.
  intros ev expand srepr before a p M after fs fs' E N. destruct (all_last ev before a p M after fs fs' E N []) as (gs & G & H).
  exists gs. split; [exact G|]. intros d q M' nd. apply contracted_same, H.
Qed.
Print Assumptions C122_last.

(** Any number of angles of incidence, each under a prefix of its own: every one of
    them can be contracted later and gives the intensity at its angle. *)
Theorem C122_angles : forall ev expand jobs fs, sound_ev ev -> NoDup (map snd jobs) ->
  exists fs', uncontracted_all ev (map (fun j => (Numeric (fst j), snd j, 16)) jobs) fs = Ok fs' /\
  forall aoi p d q, In (aoi, p) jobs -> good_tensors d q -> exists row, yields ev expand p fs' d q row /\
    forall inp out rho, respects rho -> length (row inp out) = 33 /\ forall x, fseries 16 (map (eval rho) (row inp out)) (RtoC x) =
      RtoC (setup_intensity (fformgen_setup (Q2R aoi)) (val3 rho (Some d)) (val4 rho (Some q)) inp out x).
Proof.
  intros ev expand jobs fs EV N.
  destruct (all_ok ev (map (fun j => (Numeric (fst j), snd j, 16)) jobs)) with (fs := fs) as (fs' & E).
  { intros a p M I. apply in_map_iff in I as ([aoi p0] & X & _). cbn [fst snd] in X. injection X as <- <- <-.
    exists []. destruct (num_transforms ev EV aoi p0 []) as (gs & G & _). exists gs. rewrite uncontracted_num. exact G. }
  exists fs'. split; [exact E|]. intros aoi p d q I Gd.
  apply in_split in I as (l1 & l2 & ->). rewrite map_app in E. cbn [map fst snd] in E.
  destruct (C50_intensity_numeric ev expand aoi p [] d q EV Gd) as (gs & row & G & Y & V).
  destruct (all_last ev _ _ _ _ _ fs fs' E) with (gs := @nil (string * list (list (tensor expr)))) as (gs' & G' & H).
  { intros a' p' M' I X. subst p'. apply in_map_iff in I as ([b p'] & X & I). cbn [fst snd] in X. injection X as _ -> _.
    rewrite map_app in N. cbn [map snd] in N. apply NoDup_remove_2 in N. apply N, in_or_app. right. apply in_map_iff. exists (b, p). split; [reflexivity|exact I]. }
  rewrite uncontracted_num in G'. assert (gs' = gs) by congruence. subst gs'.
  exists row. split; [|exact V]. apply (yields_same ev expand p gs fs'); [|exact Y]. intros name In_. symmetry. apply H, In_.
Qed.
Print Assumptions C122_angles.

(** Two angles, and one of them generated again under the same prefix. *)
Example C122_case : exists fs' gs, uncontracted_all (fun e => e) [(Numeric (1 # 10), "u", 16); (Numeric (1 # 5), "v", 16); (Symbolic, "v", 16)]%string [] = Ok fs' /\
  uncontracted (fun e => e) Symbolic "v" 16 [] = Ok gs /\ (forall d q,
    generate_contracted_fourier_transforms (fun e => e) (fun e => e) (fun _ => ""%string) "v" fs' d q 16 None =
    generate_contracted_fourier_transforms (fun e => e) (fun e => e) (fun _ => ""%string) "v" gs d q 16 None) /\
  exists row, yields (fun e => e) (fun e => e) "u" fs' full3 full4 row /\ length (row Pin Sin) = 33.
Proof.
  assert (X : exists fs', uncontracted_all (fun e => e) [(Numeric (1 # 10), "u", 16); (Numeric (1 # 5), "v", 16); (Symbolic, "v", 16)]%string [] = Ok fs').
  { apply all_ok. intros a p M I. exists []. destruct I as [I|[I|[I|[]]]]; injection I as <- <- <-.
    - destruct (num_transforms (fun e => e) same_sound (1 # 10) "u" []) as (gs & G & _). exists gs. rewrite uncontracted_num. exact G.
    - destruct (num_transforms (fun e => e) same_sound (1 # 5) "v" []) as (gs & G & _). exists gs. rewrite uncontracted_num. exact G.
    - destruct (C50_intensity (fun e => e) (fun e => e) "v" [] full3 full4 same_sound full_good) as (gs & row & G & _). exists gs. rewrite uncontracted_symb. exact G. }
  destruct X as (fs' & E). exists fs'.
  destruct (C122_last (fun e => e) (fun e => e) (fun _ => ""%string) [(Numeric (1 # 10), "u", 16); (Numeric (1 # 5), "v", 16)]%string Symbolic "v" 16 [] [] fs' E) as (gs & G & H).
  { intros a' p' M' []. }
  exists gs. split; [exact E|]. split; [exact G|]. split; [intros d q; apply H|].
  destruct (all_last (fun e => e) [] (Numeric (1 # 10)) "u" 16 [(Numeric (1 # 5), "v", 16); (Symbolic, "v", 16)]%string [] fs' E) with (gs := @nil (string * list (list (tensor expr)))) as (g2 & G2 & H2).
  { intros a' p' M' [I|[I|[]]]; injection I as <- <- <-; discriminate. }
  destruct (C50_intensity_numeric (fun e => e) (fun e => e) (1 # 10) "u" [] full3 full4 same_sound full_good) as (g3 & row & G3 & Y & V).
  rewrite uncontracted_num in G2. assert (g3 = g2) by congruence. subst g3.
  exists row. split; [|apply (V Pin Sin half half_respects)]. apply (yields_same _ _ "u" g2 fs'); [|exact Y]. intros name I. symmetry. apply H2, I.
Qed.
