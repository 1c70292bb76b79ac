(** Proofs for C122: the files of several uncontracted transforms. *)
From Coq Require Import String Ascii List Arith ZArith Bool Lia QArith.
Import ListNotations.
From Verif Require Import PyBase Expr ExprProofs FormModel TensorInst UtilModel FormgenModel FformgenModel SpecFformgen SpecStore.
From Verif Require Import TensorModel.
Local Open Scope nat_scope.

Lemma append_length a b : String.length (a ++ b)%string = String.length a + String.length b.
Proof. induction a as [|c a IH]; cbn; [reflexivity|]. now rewrite IH. Qed.
Lemma append_inj a a' b b' : String.length b = String.length b' -> (a ++ b = a' ++ b')%string -> a = a' /\ b = b'.
Proof.
  intros L E. assert (La : String.length a = String.length a').
  { apply (f_equal String.length) in E. rewrite !append_length in E. lia. }
  revert a' La E. induction a as [|c a IH]; intros [|c' a'] La E; cbn in *; try discriminate; [auto|].
  injection E as -> E. destruct (IH a' ltac:(lia) E) as (-> & ->). auto.
Qed.
Lemma npy_prefix p p' a a' : String.length a = String.length a' -> npy p a = npy p' a' -> p = p' /\ a = a'.
Proof.
  intros L E. unfold npy in E. destruct (append_inj p p' ("_" ++ a ++ ".npy")%string ("_" ++ a' ++ ".npy")%string) as (-> & X).
  - rewrite !append_length. lia.
  - exact E.
  - split; [reflexivity|]. cbn in X. injection X as X. apply append_inj in X as (-> & _); reflexivity.
Qed.

Section Store.
Variable ev : expr -> expr.
Notation store := (dict string (list (list (tensor expr)))).

(** The generators write four files and read none. *)
Lemma generate_writes kout kin c s prefix M : (exists e, forall fs, generate ev kout kin c s prefix M fs = Raise e) \/
  exists pp ps sp ss, forall fs, generate ev kout kin c s prefix M fs =
    Ok (dset (npy prefix "ss") ss (dset (npy prefix "sp") sp (dset (npy prefix "ps") ps (dset (npy prefix "pp") pp fs)))).
Proof.
  unfold generate.
  destruct (rotation M) as [rR|e]; [|left; exists e; reflexivity]. cbn [bind].
  destruct (conv ev _ rR) as [r1x|e]; [|left; exists e; reflexivity]. cbn [bind].
  destruct (conv ev (constant M (proj_row ev kout 1)) rR) as [r1y|e]; [|left; exists e; reflexivity]. cbn [bind].
  destruct (conv ev (constant M (proj_row ev kout 2)) rR) as [r1z|e]; [|left; exists e; reflexivity]. cbn [bind].
  destruct (mapM _ (freqs M)) as [rs|e]; [|left; exists e; reflexivity]. cbn [bind].
  destruct (mapM (fun m => do x <- slice r1x m M; _) (freqs M)) as [rp|e]; [|left; exists e; reflexivity]. cbn [bind].
  destruct (uncontracted_terms ev M rR _ _ rp) as [tp|e]; [|left; exists e; reflexivity]. cbn [bind].
  destruct (uncontracted_terms ev M rR _ _ rs) as [ts|e]; [|left; exists e; reflexivity]. cbn [bind].
  right. do 4 eexists. reflexivity.
Qed.

Lemma uncontracted_num aoi prefix M fs : uncontracted ev (Numeric aoi) prefix M fs = generate_uncontracted_fourier_transforms ev aoi prefix M fs.
Proof. reflexivity. Qed.
Lemma uncontracted_symb prefix M fs : uncontracted ev Symbolic prefix M fs = generate_uncontracted_fourier_transforms_symb ev prefix M fs.
Proof. reflexivity. Qed.
Lemma uncontracted_writes a prefix M : (exists e, forall fs, uncontracted ev a prefix M fs = Raise e) \/
  exists pp ps sp ss, forall fs, uncontracted ev a prefix M fs =
    Ok (dset (npy prefix "ss") ss (dset (npy prefix "sp") sp (dset (npy prefix "ps") ps (dset (npy prefix "pp") pp fs)))).
Proof. destruct a as [aoi|]; apply generate_writes. Qed.

Lemma uncontracted_frame a prefix M fs fs' : uncontracted ev a prefix M fs = Ok fs' ->
  forall name, ~ In name (written prefix) -> dget name fs' = dget name fs.
Proof.
  intros E name N. destruct (uncontracted_writes a prefix M) as [(e & H)|(pp & ps & sp & ss & H)]; rewrite H in E; [discriminate E|]. injection E as <-.
  rewrite !dget_dset_neq; [reflexivity| | | |]; intros X; apply N; rewrite X; cbn; auto.
Qed.
Lemma uncontracted_same a prefix M fs fs' : uncontracted ev a prefix M fs = Ok fs' -> forall gs, exists gs', uncontracted ev a prefix M gs = Ok gs' /\
  forall name, In name (written prefix) -> dget name gs' = dget name fs'.
Proof.
  intros E gs. destruct (uncontracted_writes a prefix M) as [(e & H)|(pp & ps & sp & ss & H)]; rewrite H in E; [discriminate E|]. injection E as <-.
  rewrite H. eexists. split; [reflexivity|].
  assert (X : forall (f g : store), forall name, In name (written prefix) ->
    dget name (dset (npy prefix "ss") ss (dset (npy prefix "sp") sp (dset (npy prefix "ps") ps (dset (npy prefix "pp") pp f)))) =
    dget name (dset (npy prefix "ss") ss (dset (npy prefix "sp") sp (dset (npy prefix "ps") ps (dset (npy prefix "pp") pp g))))).
  { intros f g name I.
    destruct (eqb_spec name (npy prefix "ss")) as [->|N1]; [rewrite !dget_dset_eq; reflexivity|]. rewrite !(dget_dset_neq name (npy prefix "ss")) by congruence.
    destruct (eqb_spec name (npy prefix "sp")) as [->|N2]; [rewrite !dget_dset_eq; reflexivity|]. rewrite !(dget_dset_neq name (npy prefix "sp")) by congruence.
    destruct (eqb_spec name (npy prefix "ps")) as [->|N3]; [rewrite !dget_dset_eq; reflexivity|]. rewrite !(dget_dset_neq name (npy prefix "ps")) by congruence.
    destruct (eqb_spec name (npy prefix "pp")) as [->|N4]; [rewrite !dget_dset_eq; reflexivity|].
    exfalso. change (npy prefix "pp" = name \/ npy prefix "ps" = name \/ npy prefix "sp" = name \/ npy prefix "ss" = name \/ False) in I.
    destruct I as [I|[I|[I|[I|[]]]]]; congruence. }
  intros name I. apply X, I.
Qed.

Lemma written_apart p p' name : p <> p' -> In name (written p) -> ~ In name (written p').
Proof.
  intros N I I'. apply N. apply in_map_iff in I as (a & <- & I). apply in_map_iff in I' as (a' & E & I').
  apply (npy_prefix p p' a a'); [|symmetry; exact E].
  assert (L : forall x, In x ["pp"; "ps"; "sp"; "ss"]%string -> String.length x = 2).
  { intros x H. cbn in H. repeat (destruct H as [<-|H]; [reflexivity|]). destruct H. }
  rewrite (L a I), (L a' I'). reflexivity.
Qed.

Lemma all_frame jobs : forall fs fs', uncontracted_all ev jobs fs = Ok fs' ->
  forall name, (forall a p M, In (a, p, M) jobs -> ~ In name (written p)) -> dget name fs' = dget name fs.
Proof.
  induction jobs as [|[[a p] M] jobs IH]; intros fs fs' E name N; cbn [uncontracted_all] in E; [congruence|].
  destruct (uncontracted ev a p M fs) as [fs1|] eqn:E1; [|discriminate E].
  rewrite (IH fs1 fs' E name) by (intros a' p' M' I; apply (N a' p' M'); right; exact I).
  apply (uncontracted_frame a p M fs fs1 E1). apply (N a p M). left. reflexivity.
Qed.
Lemma all_app jobs jobs' fs fs' : uncontracted_all ev (jobs ++ jobs') fs = Ok fs' ->
  exists fs1, uncontracted_all ev jobs fs = Ok fs1 /\ uncontracted_all ev jobs' fs1 = Ok fs'.
Proof.
  revert fs. induction jobs as [|[[a p] M] jobs IH]; intros fs E; cbn [app uncontracted_all] in *; [eauto|].
  destruct (uncontracted ev a p M fs); [|discriminate E]. apply IH, E.
Qed.
Lemma all_last before a p M after fs fs' : uncontracted_all ev (before ++ (a, p, M) :: after) fs = Ok fs' ->
  (forall a' p' M', In (a', p', M') after -> p' <> p) -> forall gs, exists gs', uncontracted ev a p M gs = Ok gs' /\
  forall name, In name (written p) -> dget name fs' = dget name gs'.
Proof.
  intros E N gs. apply all_app in E as (fs1 & _ & E). cbn [uncontracted_all] in E. destruct (uncontracted ev a p M fs1) as [fs2|] eqn:E2; [|discriminate E].
  destruct (uncontracted_same a p M fs1 fs2 E2 gs) as (gs' & G & H). exists gs'. split; [exact G|]. intros name I. rewrite (H name I).
  apply (all_frame after fs2 fs' E name). intros a' p' M' J. apply (written_apart p p' name); [|exact I]. intros X. apply (N a' p' M' J). symmetry. exact X.
Qed.

Lemma contracted_dict_same expand p fs gs d q M nd : (forall name, In name (written p) -> dget name fs = dget name gs) ->
  contracted_dict ev expand p fs d q M nd = contracted_dict ev expand p gs d q M nd.
Proof.
  intros H. unfold contracted_dict.
  assert (X : mapM (fun pc => do t <- load_npy fs (npy p (lower pc)); Ok (pc, t)) pcs = mapM (fun pc => do t <- load_npy gs (npy p (lower pc)); Ok (pc, t)) pcs).
  { unfold pcs. cbn [mapM lower]. unfold load_npy.
    rewrite (H (npy p (lower "PP"))), (H (npy p (lower "PS"))), (H (npy p (lower "SP"))), (H (npy p (lower "SS"))); [reflexivity| | | |]; cbn; auto. }
  rewrite X. reflexivity.
Qed.
Lemma contracted_same expand srepr p fs gs d q M nd : (forall name, In name (written p) -> dget name fs = dget name gs) ->
  generate_contracted_fourier_transforms ev expand srepr p fs d q M nd = generate_contracted_fourier_transforms ev expand srepr p gs d q M nd.
Proof.
  intros H. unfold generate_contracted_fourier_transforms. rewrite (contracted_dict_same expand p fs gs d q M nd H). reflexivity.
Qed.

Lemma yields_same expand p fs gs d q row : (forall name, In name (written p) -> dget name fs = dget name gs) ->
  yields ev expand p fs d q row -> yields ev expand p gs d q row.
Proof.
  intros H (D & E & K & G & Y). exists D. split; [rewrite <- (contracted_dict_same expand p fs gs d q 16 None H); exact E|]. split; [exact K|]. split; [exact G|].
  intros srepr parse P. destruct (Y srepr parse P) as (file & F & X). exists file, F. rewrite <- (contracted_same expand srepr p fs gs d q 16 None H). exact X.
Qed.

Lemma all_ok jobs : (forall a p M, In (a, p, M) jobs -> exists fs fs', uncontracted ev a p M fs = Ok fs') ->
  forall fs, exists fs', uncontracted_all ev jobs fs = Ok fs'.
Proof.
  induction jobs as [|[[a p] M] jobs IH]; intros H fs; cbn [uncontracted_all]; [eauto|].
  destruct (H a p M (or_introl eq_refl)) as (gs & gs' & G). destruct (uncontracted_same a p M gs gs' G fs) as (fs1 & -> & _).
  apply IH. intros a' p' M' I. apply (H a' p' M'). right. exact I.
Qed.
End Store.
