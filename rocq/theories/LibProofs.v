(** Proofs for C127 and C128. *)
From Coq Require Import String Ascii List Arith ZArith Bool Lia Reals Lra.
From Coquelicot Require Import Complex.
Import ListNotations.
From Verif Require Import PyBase CBase Expr FDataModel FormModel FitModel SpecFit FitProofs FitProofs2 FitProofs3 FitProofs5 LibModel SpecLib.
Local Open Scope nat_scope.

Lemma absolute_idem cwd s : absolute cwd s = s \/ absolute cwd s = (cwd ++ "/" ++ s)%string.
Proof. destruct s as [|c s]; [right; reflexivity|]. destruct c as [[|] [|] [|] [|] [|] [|] [|] [|]]; cbn; auto. Qed.
Lemma slash_app a b : has_slash (a ++ b) = (has_slash a || has_slash b)%bool.
Proof. induction a as [|c a IH]; cbn; [reflexivity|]. rewrite IH. destruct (Ascii.eqb c "/"); reflexivity. Qed.
Lemma absolute_root cwd s : has_slash s = false -> absolute cwd s = (cwd ++ "/" ++ s)%string.
Proof. destruct s as [|c s]; [reflexivity|]. destruct c as [[|] [|] [|] [|] [|] [|] [|] [|]]; cbn; intros H; try reflexivity; discriminate H. Qed.
Lemma absolute_slash cwd s : has_slash (absolute cwd s) = true.
Proof.
  destruct s as [|c s]; [cbn; rewrite slash_app, orb_true_r; reflexivity|].
  assert (X : c = "/"%char \/ absolute cwd (String c s) = (cwd ++ "/" ++ String c s)%string) by (destruct c as [[|] [|] [|] [|] [|] [|] [|] [|]]; cbn; auto).
  destruct X as [-> | ->]; [reflexivity|]. rewrite slash_app. cbn. apply orb_true_r.
Qed.
Lemma starts_slash s : starts "/" s = true -> exists t, s = String "/" t.
Proof.
  destruct s as [|c s]; [intros H; cbn in H; discriminate H|]. change (starts "/" (String c s)) with (Ascii.eqb "/" c && true)%bool.
  destruct (Ascii.eqb_spec "/" c) as [<-|N]; [exists s; reflexivity|]. intros H; discriminate H.
Qed.
Lemma absolute_twice cwd s : starts "/" cwd = true -> absolute cwd (absolute cwd s) = absolute cwd s.
Proof.
  intros H. apply starts_slash in H. destruct H as [t ->].
  destruct s as [|c s]; [reflexivity|]. destruct c as [[|] [|] [|] [|] [|] [|] [|] [|]]; reflexivity.
Qed.

Lemma handed_slash cwd a : names_file a -> has_slash (handed cwd a) = true.
Proof. destruct a as [s|s]; cbn; [auto|]. intros _. apply absolute_slash. Qed.
Lemma handed_absolute cwd a : starts "/" cwd = true -> absolute cwd (handed cwd a) = absolute cwd (text a).
Proof. intros H. destruct a as [s|s]; [reflexivity|]. apply absolute_twice. exact H. Qed.

Lemma dlopen_opened cwd s p t : t <> s -> dget t (opened (fst (dlopen cwd s p))) = dget t (opened p).
Proof.
  intros N. unfold dlopen. destruct (dget s (opened p)); [reflexivity|]. destruct (has_slash s); [|reflexivity].
  destruct (dget (absolute cwd s) (on_disk p)); [|reflexivity]. cbn. apply dget_dset_neq. congruence.
Qed.
Lemma dlopen_keeps cwd s p t lib : dget t (opened p) = Some lib -> dget t (opened (fst (dlopen cwd s p))) = Some lib.
Proof.
  intros E. destruct (string_dec t s) as [->|N]; [|rewrite dlopen_opened; assumption]. unfold dlopen. rewrite E. exact E.
Qed.
Lemma dlopen_disk cwd s p : on_disk (fst (dlopen cwd s p)) = on_disk p.
Proof. unfold dlopen. destruct (dget s (opened p)); [reflexivity|]. destruct (has_slash s); [|reflexivity]. destruct (dget (absolute cwd s) (on_disk p)); reflexivity. Qed.
Lemma dlopen_result cwd s p lib : snd (dlopen cwd s p) = Ok lib -> dget s (opened (fst (dlopen cwd s p))) = Some lib.
Proof.
  unfold dlopen. destruct (dget s (opened p)) as [l|] eqn:E; cbn; [intros X; injection X as <-; exact E|]. destruct (has_slash s); [|discriminate].
  destruct (dget (absolute cwd s) (on_disk p)); [|discriminate]. cbn. intros X. injection X as <-. apply dget_dset_eq.
Qed.
Lemma dlopen_again cwd s p lib : dget s (opened p) = Some lib -> dlopen cwd s p = (p, Ok lib).
Proof. intros E. unfold dlopen. rewrite E. reflexivity. Qed.
Lemma call_later_fst cwd a xs p : fst (call_later cwd a xs p) = fst (dlopen cwd (text a) p).
Proof. unfold call_later. destruct (dlopen cwd (text a) p). reflexivity. Qed.
Lemma call_later_snd cwd a xs p : snd (call_later cwd a xs p) = do lib <- snd (dlopen cwd (text a) p); Ok (call lib xs).
Proof. unfold call_later. destruct (dlopen cwd (text a) p). reflexivity. Qed.
Lemma generate_opened kev cwd F D free chunk save p : opened (fst (generate kev cwd F D free chunk save p)) = opened p.
Proof. unfold generate. destruct (gen_cost_func _ _ _ _ _ _ _). reflexivity. Qed.

Section Sessions.
Variable kev : code -> code.
Variable cwd : string.

Lemma session_unopened h : forall p s, (forall e, In e h -> ~ opens cwd e s) -> dget s (opened p) = None -> dget s (opened (session kev cwd p h)) = None.
Proof.
  induction h as [|e h IH]; intros p s N E; [exact E|]. cbn [session fold_left]. apply IH; [intros e' I; apply N; right; exact I|].
  assert (Ne := N e (or_introl eq_refl)). destruct e as [F D free chunk save|a|a xs|]; cbn [happen opens] in *.
  - rewrite generate_opened. exact E.
  - unfold load_now. rewrite dlopen_opened; [exact E|congruence].
  - rewrite call_later_fst, dlopen_opened; [exact E|congruence].
  - reflexivity.
Qed.
Lemma session_pinned h : forall p s lib, ~ In NewProcess h -> dget s (opened p) = Some lib -> dget s (opened (session kev cwd p h)) = Some lib.
Proof.
  induction h as [|e h IH]; intros p s lib N E; [exact E|]. cbn [session fold_left]. apply IH; [intros I; apply N; right; exact I|].
  destruct e as [F D free chunk save|a|a xs|]; cbn [happen].
  - rewrite generate_opened. exact E.
  - apply dlopen_keeps. exact E.
  - rewrite call_later_fst. apply dlopen_keeps. exact E.
  - exfalso. apply N. left. reflexivity.
Qed.
Lemma session_bare h : forall p s, has_slash s = false -> dget s (opened p) = None -> dget s (opened (session kev cwd p h)) = None.
Proof.
  induction h as [|e h IH]; intros p s B E; [exact E|]. cbn [session fold_left]. apply IH; [exact B|].
  assert (X : forall t, dget s (opened (fst (dlopen cwd t p))) = None).
  { intros t. destruct (string_dec s t) as [<-|N]; [|rewrite dlopen_opened; assumption]. unfold dlopen. rewrite E, B. exact E. }
  destruct e as [F D free chunk save|a|a xs|]; cbn [happen]; [rewrite generate_opened; exact E|apply X|rewrite call_later_fst; apply X|reflexivity].
Qed.

Lemma saved_on_disk F D free chunk a p p1 lib : generate kev cwd F D free chunk (Some a) p = (p1, Ok lib) -> dget (absolute cwd (text a)) (on_disk p1) = Some lib.
Proof.
  unfold generate. cbn [option_map]. destruct (gen_cost_func kev F D free chunk (Some (absolute cwd (text a))) (on_disk p)) as [fs r] eqn:G. intros E. injection E as <- ->. cbn [on_disk].
  unfold gen_cost_func in G. destruct chunk.
  - destruct (terms kev F D free) as [[ts n]|]; [|discriminate]. unfold chunked in G. destruct (forallb _ ts); [|discriminate]. destruct ts as [|t ts]; [discriminate|].
    injection G as <- <-. cbn [save_lib]. apply dget_dset_eq.
  - destruct (energy_expr kev F D free) as [[e n]|]; [|discriminate]. unfold autowrap in G. injection G as <- <-. cbn [save_lib]. apply dget_dset_eq.
Qed.

Lemma first_load fs h F D free chunk a lib p1 : starts "/" cwd = true -> (forall e, In e h -> ~ opens cwd e (handed cwd a)) -> names_file a ->
  generate kev cwd F D free chunk (Some a) (session kev cwd (new_process fs) h) = (p1, Ok lib) -> snd (load_now cwd a p1) = Ok lib.
Proof.
  intros A N Nf G. pose proof (saved_on_disk _ _ _ _ _ _ _ _ G) as S.
  assert (U : dget (handed cwd a) (opened p1) = None).
  { assert (E : opened p1 = opened (session kev cwd (new_process fs) h)) by (pose proof (generate_opened kev cwd F D free chunk (Some a) (session kev cwd (new_process fs) h)) as Q; rewrite G in Q; exact Q).
    rewrite E. apply session_unopened; [exact N|reflexivity]. }
  unfold load_now, dlopen. rewrite U, (handed_slash cwd a Nf), (handed_absolute cwd a A), S. reflexivity.
Qed.
Lemma first_call fs h F D free chunk a lib p1 xs : (forall e, In e h -> ~ opens cwd e (text a)) -> has_slash (text a) = true ->
  generate kev cwd F D free chunk (Some a) (session kev cwd (new_process fs) h) = (p1, Ok lib) -> snd (call_later cwd a xs p1) = Ok (call lib xs).
Proof.
  intros N Nf G. pose proof (saved_on_disk _ _ _ _ _ _ _ _ G) as S.
  assert (U : dget (text a) (opened p1) = None).
  { assert (E : opened p1 = opened (session kev cwd (new_process fs) h)) by (pose proof (generate_opened kev cwd F D free chunk (Some a) (session kev cwd (new_process fs) h)) as Q; rewrite G in Q; exact Q).
    rewrite E. apply session_unopened; [exact N|reflexivity]. }
  rewrite call_later_snd. unfold dlopen. rewrite U, Nf, S. reflexivity.
Qed.
Lemma pinned p h a lib : ~ In NewProcess h -> snd (load_now cwd a p) = Ok lib -> snd (load_now cwd a (session kev cwd (fst (load_now cwd a p)) h)) = Ok lib.
Proof.
  intros N E. unfold load_now in *. apply dlopen_result in E. rewrite (dlopen_again cwd _ _ lib); [reflexivity|]. apply session_pinned; assumption.
Qed.
Lemma bare fs h name : has_slash name = false -> snd (load_now cwd (PStr name) (session kev cwd (new_process fs) h)) = Raise OSError /\
  forall a xs, text a = name -> snd (call_later cwd a xs (session kev cwd (new_process fs) h)) = Raise OSError.
Proof.
  intros B. assert (U := session_bare h (new_process fs) name B eq_refl). split.
  - unfold load_now. cbn [handed]. unfold dlopen. rewrite U, B. reflexivity.
  - intros a xs T. rewrite call_later_snd, T. unfold dlopen. rewrite U, B. reflexivity.
Qed.
End Sessions.

Lemma cost_unsaved kev F D free chunk save save' fs fs' lib : snd (gen_cost_func kev F D free chunk save fs) = Ok lib -> snd (gen_cost_func kev F D free chunk save' fs') = Ok lib.
Proof.
  unfold gen_cost_func. destruct chunk.
  - destruct (terms kev F D free) as [[ts n]|]; [|intros H; exact H]. unfold chunked. destruct (forallb _ ts); [|destruct save; discriminate]. destruct ts; [destruct save; discriminate|]. intros H; exact H.
  - destruct (energy_expr kev F D free) as [[e n]|]; [|intros H; exact H]. unfold autowrap. destruct save, save'; cbn; auto.
Qed.
Lemma next_process kev cwd p F D chunk a lib p1 free : sound_kev kev -> starts "/" cwd = true -> names_file a -> matching F D -> ff_free_symbols F = Ok free ->
  generate kev cwd F D None chunk (Some a) p = (p1, Ok lib) ->
  snd (load_now cwd a (session kev cwd p1 [NewProcess])) = Ok lib /\ computes F D free lib /\
  forall optimiser guess kw fs, fit_loaded kev cwd optimiser F D guess a kw (session kev cwd p1 [NewProcess]) =
    snd (least_squares_fit kev optimiser F D guess None chunk None None kw fs).
Proof.
  intros KEV A Nf Ma Ef G. pose proof (saved_on_disk kev cwd _ _ _ _ _ _ _ _ G) as S.
  assert (L : snd (load_now cwd a (session kev cwd p1 [NewProcess])) = Ok lib).
  { cbn [session fold_left happen]. unfold load_now, dlopen. cbn [opened on_disk]. rewrite (handed_slash cwd a Nf), (handed_absolute cwd a A), S. reflexivity. }
  assert (Gl : forall save fs, snd (gen_cost_func kev F D (Some free) chunk save fs) = Ok lib).
  { intros save fs. apply (cost_unsaved kev F D (Some free) chunk (Some (absolute cwd (text a))) save (on_disk p) fs).
    rewrite <- (gen_default kev F D free chunk _ _ Ef). unfold generate in G. cbn [option_map] in G.
    destruct (gen_cost_func kev F D None chunk (Some (absolute cwd (text a))) (on_disk p)) as [q r]. injection G as _ ->. reflexivity. }
  split; [exact L|]. split.
  - assert (NE : chunk = true -> ff_rows F <> []).
    { intros -> X. specialize (Gl None []). revert Gl. unfold gen_cost_func, terms, symbols_or. cbn [bind]. unfold ff_get_keys. rewrite X. cbn. discriminate. }
    destruct (cost_ok kev KEV F D free chunk None [] Ma (free_argument_list F free Ef) NE) as (lib' & G' & H).
    specialize (Gl None []). rewrite G' in Gl. injection Gl as <-. exact H.
  - intros optimiser guess kw fs. unfold fit_loaded, found. rewrite L. unfold least_squares_fit. rewrite Ef. destruct free as [|s free]; [reflexivity|].
    unfold cost_of. specialize (Gl None fs). destruct (gen_cost_func kev F D (Some (s :: free)) chunk None fs) as [q r]. cbn [snd] in Gl. subst r.
    unfold load_func. cbn [dget]. rewrite eqb_refl. reflexivity.
Qed.
