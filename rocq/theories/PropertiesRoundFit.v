(** C126: fits with a rounded formula. *)
From Coq Require Import String List Arith ZArith Bool Lia Reals QArith Qreals Lra.
From Coquelicot Require Import Complex.
Import ListNotations.
From Verif Require Import PyBase DataProofs2 CBase FourierBase Expr ExprProofs SpecForm SpecFData FDataModel FDataProofs FormModel UtilModel SpecFormgen
  FformgenModel SpecFformgen FformgenProofs FformgenThms FitModel SpecFit FitProofs FitProofs2 SpecRound SpecRoundFit RoundProofs RoundThms RoundFitProofs
  PropertiesForm PropertiesFformgen PropertiesView.
From Verif Require Import SpecTensor TensorModel.
Local Open Scope nat_scope.

(** The file written with [ndigits] is read as the formula of the file written
    without, every entry rounded. *)
Lemma yields_lengths ev expand prefix fs d q row D : contracted_dict ev expand prefix fs d q 16 None = Ok D -> dkeys D = ["PP"; "PS"; "SP"; "SS"]%string ->
  (forall inp out, dget (key inp out) D = Some (row inp out)) -> (forall inp out, length (row inp out) = 33) -> forall k r, In (k, r) D -> length r = 33.
Proof.
  intros E K G L k r I. assert (X : exists inp out, key inp out = k).
  { assert (Ik : In k (dkeys D)) by (apply (in_map fst) in I; exact I). rewrite K in Ik. simpl in Ik.
    destruct Ik as [<-|[<-|[<-|[<-|[]]]]]; [exists Pin, Pin|exists Pin, Sin|exists Sin, Pin|exists Sin, Sin]; reflexivity. }
  destruct X as (inp & out & <-). assert (W : wf_dict D) by (unfold wf_dict; rewrite K; repeat constructor; simpl; intuition discriminate).
  apply (In_dget _ _ _ W) in I. rewrite (G inp out) in I. injection I as <-. apply L.
Qed.

Theorem C126_file : forall ev expand aoi prefix fs d q nd srepr parse, sound_ev ev -> good_tensors d q -> (forall e, parse (srepr e) = Ok e) ->
  exists fs' file file' F, generate_uncontracted_fourier_transforms ev aoi prefix 16 fs = Ok fs' /\
    generate_contracted_fourier_transforms ev expand srepr prefix fs' d q 16 None = Ok file /\ load_fform parse file = Ok F /\
    generate_contracted_fourier_transforms ev expand srepr prefix fs' d q 16 (Some nd) = Ok file' /\ load_fform parse file' = Ok (rewritten (round_expr ev expand nd) F) /\
    ff_M F = 16 /\ dkeys (ff_rows F) = ["PP"; "PS"; "SP"; "SS"]%string /\ formula_ok F.
Proof.
  intros ev expand aoi prefix fs d q nd srepr parse EV G P.
  destruct (C50_intensity_numeric ev expand aoi prefix fs d q EV G) as (fs' & row & E & (D & ED & KD & GD & _) & V).
  assert (L : forall inp out, length (row inp out) = 33) by (intros inp out; apply (V inp out rho1 rho1_respects)).
  destruct (rounded_file ev expand prefix fs' d q nd D srepr parse ED KD (yields_lengths ev expand prefix fs' d q row D ED KD GD L) P) as (file & file' & F & H).
  exists fs', file, file', F. split; [exact E|exact H].
Qed.
Print Assumptions C126_file.
Theorem C126_file_symb : forall ev expand prefix fs d q nd srepr parse, sound_ev ev -> good_tensors d q -> (forall e, parse (srepr e) = Ok e) ->
  exists fs' file file' F, generate_uncontracted_fourier_transforms_symb ev prefix 16 fs = Ok fs' /\
    generate_contracted_fourier_transforms ev expand srepr prefix fs' d q 16 None = Ok file /\ load_fform parse file = Ok F /\
    generate_contracted_fourier_transforms ev expand srepr prefix fs' d q 16 (Some nd) = Ok file' /\ load_fform parse file' = Ok (rewritten (round_expr ev expand nd) F) /\
    ff_M F = 16 /\ dkeys (ff_rows F) = ["PP"; "PS"; "SP"; "SS"]%string /\ formula_ok F.
Proof.
  intros ev expand prefix fs d q nd srepr parse EV G P.
  destruct (C50_intensity ev expand prefix fs d q EV G) as (fs' & row & E & (D & ED & KD & GD & _) & V).
  assert (L : forall inp out, length (row inp out) = 33) by (intros inp out; apply (V inp out rho1 0%R rho1_respects eq_refl)).
  destruct (rounded_file ev expand prefix fs' d q nd D srepr parse ED KD (yields_lengths ev expand prefix fs' d q row D ED KD GD L) P) as (file & file' & F & H).
  exists fs', file, file', F. split; [exact E|exact H].
Qed.
Print Assumptions C126_file_symb.

(** The roots of the two costs differ by at most one unit of the last digit times
    the sizes of the products; not at all when every number is short. *)
Theorem C126_cost : forall ev expand kev nd F D free chunk chunk' save save' lfs lfs', sound_ev ev -> sound_ev expand -> sound_kev kev ->
  matching F D -> ff_rows F <> [] -> argument_list F free ->
  exists lib lib', gen_cost_func kev F D (Some free) chunk save lfs = (save_lib save lib lfs, Ok lib) /\
    gen_cost_func kev (rewritten (round_expr ev expand nd) F) D (Some free) chunk' save' lfs' = (save_lib save' lib' lfs', Ok lib') /\
    forall xs, length xs = length free -> exists c c', call lib xs = Some c /\ call lib' xs = Some c' /\ (0 <= c)%R /\ (0 <= c')%R /\
      ((forall k r m, In (k, r) (ff_rows F) -> In m (freqs (ff_M F)) -> short_numbers nd (expand (fcell (ff_M F) r m))) -> c' = c) /\
      forall ts, expansions expand nd F ts -> (Rabs (sqrt c' - sqrt c) <= rounding_bound nd F ts (reading free xs))%R.
Proof. exact rounded_cost. Qed.
Print Assumptions C126_cost.

(** So the best parameters of the rounded formula are almost as good for the exact one. *)
Theorem C126_best : forall ev expand kev nd F D free chunk chunk' save save' lfs lfs' ts, sound_ev ev -> sound_ev expand -> sound_kev kev ->
  matching F D -> ff_rows F <> [] -> argument_list F free -> expansions expand nd F ts ->
  exists lib lib', gen_cost_func kev F D (Some free) chunk save lfs = (save_lib save lib lfs, Ok lib) /\
    gen_cost_func kev (rewritten (round_expr ev expand nd) F) D (Some free) chunk' save' lfs' = (save_lib save' lib' lfs', Ok lib') /\
    forall best, length best = length free -> (forall xs b c, length xs = length free -> call lib' best = Some b -> call lib' xs = Some c -> (b <= c)%R) ->
      exists b, call lib best = Some b /\ forall xs, length xs = length free -> exists c, call lib xs = Some c /\
        (sqrt b <= sqrt c + rounding_bound nd F ts (reading free best) + rounding_bound nd F ts (reading free xs))%R.
Proof.
  intros ev expand kev nd F D free chunk chunk' save save' lfs lfs' ts EV EX KEV Ma NE A X.
  destruct (C126_cost ev expand kev nd F D free chunk chunk' save save' lfs lfs' EV EX KEV Ma NE A) as (lib & lib' & G & G' & H).
  exists lib, lib'. split; [exact G|]. split; [exact G'|]. intros best Lb Best.
  destruct (H best Lb) as (b & b' & Cb & Cb' & _ & _ & _ & Bb). exists b. split; [exact Cb|]. intros xs Lx.
  destruct (H xs Lx) as (c & c' & Cc & Cc' & _ & _ & _ & Bc). exists c. split; [exact Cc|].
  specialize (Bb ts X). specialize (Bc ts X). specialize (Best xs b' c' Lx Cb' Cc'). apply sqrt_le_1_alt in Best.
  pose proof (Rle_abs (sqrt c' - sqrt c)). pose proof (Rle_abs (- (sqrt b' - sqrt b))) as Y. rewrite Rabs_Ropp in Y. lra.
Qed.
Print Assumptions C126_best.

(** 0.126 a^2 + 0.5 i a at frequency 0, two digits. *)
Definition small_formula : fform := mkff [("PP"%string, mkrow true [EAdd []; small_entry; EAdd []])] 1.
Definition small_data : fdat := mkfdat [("PP"%string, [RtoC 0; RtoC 2; RtoC 0])] 1 (PNum 0) 1.
Definition small_expansions (k : string) (m : Z) : list ((Q * Q) * list expr) :=
  if Z.eqb m 0 then [((126 # 1000, 0%Q), [EPow A_ 2]); ((0%Q, 1 # 2), [A_])] else [].
Example C126_case : matching small_formula small_data /\ expansions (fun e => e) 2 small_formula small_expansions /\
  fcell 1 (mkrow true [EAdd []; small_entry; EAdd []]) 0 = small_entry /\
  rewritten (round_expr (fun e => e) (fun e => e) 2) small_formula =
    mkff [("PP"%string, mkrow true [EAdd []; EAdd [EMul [ENum (13 # 100) (0 # 100); EPow A_ 2]; EMul [ENum (0 # 100) (50 # 100); A_]]; EAdd []])] 1.
Proof.
  split; [|split; [|split; reflexivity]].
  - split; [split; [repeat constructor; cbn; intuition discriminate|cbn; intros k r [E|[]]; injection E as <- <-; reflexivity]|].
    split; [split; [repeat constructor; cbn; intuition discriminate|cbn; intros k r [E|[]]; injection E as <- <-; reflexivity]|].
    split; [reflexivity|]. cbn. auto.
  - intros k r m I J. cbn in I. destruct I as [E|[]]. injection E as <- <-. change (In m [-1; 0; 1]%Z) in J.
    destruct J as [<-|[<-|[<-|[]]]].
    + split; [reflexivity|]. intros c fs f [].
    + apply C79_case.
    + split; [reflexivity|]. intros c fs f [].
Qed.
