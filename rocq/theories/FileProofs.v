(** Proofs about the cache directory. *)

From Coq Require Import List Bool String Lia.
From Verif Require Import FileModel FileSpec.
Import ListNotations.

Lemma path_eqb_spec p q : path_eqb p q = true <-> p = q.
Proof. unfold path_eqb. destruct (list_eq_dec string_dec p q); split; congruence. Qed.
Lemma path_eqb_refl p : path_eqb p p = true.
Proof. now apply path_eqb_spec. Qed.
Lemma path_eqb_neq p q : p <> q -> path_eqb p q = false.
Proof. intros H. destruct (path_eqb p q) eqn:E; [|easy]. now apply path_eqb_spec in E. Qed.

Lemma lookup_cons p n s q : lookup ((p, n) :: s) q = if path_eqb p q then Some n else lookup s q.
Proof. unfold lookup. cbn. now destruct (path_eqb p q). Qed.

Lemma lookup_erase s p q : lookup (erase s p) q = if path_eqb p q then None else lookup s q.
Proof.
  induction s as [|[r n] s IH].
  { cbn. now destruct (path_eqb p q). }
  cbn [erase filter fst]. fold (erase s p). destruct (path_eqb r p) eqn:E; cbn [negb].
  - rewrite IH. apply path_eqb_spec in E. subst r. rewrite lookup_cons. now destruct (path_eqb p q).
  - rewrite !lookup_cons, IH. destruct (path_eqb r q) eqn:E2; [|easy].
    apply path_eqb_spec in E2. subst r. destruct (path_eqb p q) eqn:E3; [|easy].
    apply path_eqb_spec in E3. subst q. now rewrite path_eqb_refl in E.
Qed.

Lemma lookup_none s p : (forall n, ~ In (p, n) s) -> lookup s p = None.
Proof.
  induction s as [|[q n] s IH]; intros H; [easy|]. rewrite lookup_cons.
  destruct (path_eqb q p) eqn:E.
  - apply path_eqb_spec in E. subst. exfalso. now apply (H n); left.
  - apply IH. intros m Hm. now apply (H m); right.
Qed.
Lemma lookup_in s p n : In (p, n) s -> lookup s p <> None.
Proof.
  induction s as [|[q m] s IH]; [easy|]. intros [H|H].
  - injection H as -> ->. rewrite lookup_cons, path_eqb_refl. easy.
  - rewrite lookup_cons. destruct (path_eqb q p); [easy|auto].
Qed.

Lemma in_listdir s p x : In x (listdir s p) <-> lookup s (p ++ [x]) <> None.
Proof.
  unfold listdir. rewrite in_flat_map. split.
  - intros ([q n] & Hq & Hx). cbn in Hx. destruct (rev q) as [|y r] eqn:E; [easy|].
    destruct (path_eqb (rev r) p) eqn:E2; [|easy]. destruct Hx as [<-|[]].
    apply path_eqb_spec in E2. subst p.
    assert (Hq2 : q = rev r ++ [y]) by (rewrite <- (rev_involutive q), E; reflexivity).
    rewrite <- Hq2. now apply lookup_in in Hq.
  - intros H. destruct (lookup s (p ++ [x])) as [n|] eqn:E; [|easy].
    unfold lookup in E. destruct (find (fun e => path_eqb (fst e) (p ++ [x])) s) as [[q m]|] eqn:F; [|easy].
    apply find_some in F. destruct F as [F1 F2]. cbn in F2. apply path_eqb_spec in F2. subst q.
    exists (p ++ [x], m). split; [easy|]. cbn. rewrite rev_app_distr. cbn. rewrite rev_involutive, path_eqb_refl. now left.
Qed.
Lemma listdir_nil s p : listdir s p = [] <-> forall x, lookup s (p ++ [x]) = None.
Proof.
  split.
  - intros H x. destruct (lookup s (p ++ [x])) eqn:E; [|easy].
    assert (In x (listdir s p)) by (apply in_listdir; congruence). now rewrite H in *.
  - intros H. destruct (listdir s p) as [|x l] eqn:E; [easy|].
    exfalso. assert (In x (listdir s p)) by (rewrite E; now left). apply in_listdir in H0. now rewrite H in H0.
Qed.

Lemma above_dec q p : {above q p} + {~ above q p}.
Proof.
  destruct (list_eq_dec string_dec q []) as [->|N]; [right; intros [H _]; easy|].
  destruct (list_eq_dec string_dec (firstn (List.length q) p) q) as [E|E].
  - left. split; [easy|]. exists (skipn (List.length q) p). now rewrite <- E at 1; rewrite firstn_skipn.
  - right. intros [_ [r ->]]. apply E. rewrite firstn_app, firstn_all, PeanoNat.Nat.sub_diag. cbn. now rewrite app_nil_r.
Qed.

Lemma app_last_cases (q : path) r p c : p ++ [c] = q ++ r -> q = p ++ [c] \/ exists r', p = q ++ r'.
Proof.
  destruct r as [|a r] using rev_ind.
  - rewrite app_nil_r. intros <-. now left.
  - rewrite app_assoc. intros E. apply app_inj_tail in E. right. exists r. tauto.
Qed.
Lemma above_snoc q p c : above q (p ++ [c]) <-> q = p ++ [c] \/ above q p.
Proof.
  split.
  - intros [N [r E]]. destruct (app_last_cases _ _ _ _ E) as [H|[r' H]]; [now left|]. right. split; [easy|]. now exists r'.
  - intros [->|[N [r ->]]].
    + split; [now destruct p|]. exists []. now rewrite app_nil_r.
    + split; [easy|]. exists (r ++ [c]). now rewrite app_assoc.
Qed.
Lemma above_self p : p <> [] -> above p p.
Proof. intros. split; [easy|]. exists []. now rewrite app_nil_r. Qed.
Lemma above_under q p c : above (p ++ c :: q) p -> False.
Proof. intros [_ [r E]]. apply (f_equal (@List.length string)) in E. rewrite !app_length in E. cbn in E. lia. Qed.

(** Below a missing entry nothing exists. *)
Lemma missing_below s p r : well_formed s -> p <> [] -> lookup s p = None -> lookup s (p ++ r) = None.
Proof.
  intros W N. revert r. refine (rev_ind _ _ _).
  - now rewrite app_nil_r.
  - intros c r IH H. destruct (lookup s (p ++ r ++ [c])) eqn:E; [|easy].
    rewrite app_assoc in E. destruct (proj2 W (p ++ r) c) as [H1|H1]; [congruence| |].
    + now destruct p.
    + now rewrite IH in H1.
Qed.
Lemma above_present s p q : well_formed s -> lookup s p = Some Dir -> above q p -> lookup s q = Some Dir.
Proof.
  intros W H [N [r ->]]. revert H. pattern r. revert r. refine (rev_ind _ _ _).
  - now rewrite app_nil_r.
  - intros c r IH H. apply IH. rewrite app_assoc in H. destruct (proj2 W (q ++ r) c) as [H1|H1]; [congruence| |easy].
    now destruct q.
Qed.

(** State: [s] with all of the directories above [p] in addition. *)
Definition extended (s s' : fs) (p : path) : Prop :=
  forall q, lookup s' q = if above_dec q p then Some Dir else lookup s q.

Lemma makedirs_from_spec s0 rest : forall s base,
  (forall q, above q (base ++ rest) -> lookup s0 q = Some Dir \/ lookup s0 q = None) ->
  rest <> [] ->
  (forall q, lookup s q = if above_dec q base then Some Dir else lookup s0 q) ->
  lookup s0 (base ++ rest) = None ->
  exists s', makedirs_from s base rest = Done s' /\ extended s0 s' (base ++ rest).
Proof.
  induction rest as [|c r IH]; intros s base HD HN Hs Hnew; [easy|]. cbn [makedirs_from].
  assert (Eb : base ++ c :: r = (base ++ [c]) ++ r) by now rewrite <- app_assoc.
  assert (Habove : above (base ++ [c]) (base ++ c :: r)).
  { split; [now destruct base|]. exists r. easy. }
  assert (Hl : lookup s (base ++ [c]) = lookup s0 (base ++ [c])).
  { rewrite Hs. destruct (above_dec (base ++ [c]) base) as [A|A]; [|easy]. exfalso. now apply above_under in A. }
  assert (Hext : forall s2, (forall q, lookup s2 q = if path_eqb (base ++ [c]) q then Some Dir else lookup s q) ->
                 forall q, lookup s2 q = if above_dec q (base ++ [c]) then Some Dir else lookup s0 q).
  { intros s2 H2 q. rewrite H2. destruct (path_eqb (base ++ [c]) q) eqn:E.
    - apply path_eqb_spec in E. subst q. destruct (above_dec (base ++ [c]) (base ++ [c])) as [A|A]; [easy|].
      exfalso. apply A. apply above_self. now destruct base.
    - rewrite Hs. destruct (above_dec q base) as [A|A], (above_dec q (base ++ [c])) as [B|B]; try easy.
      + exfalso. apply B. apply above_snoc. now right.
      + exfalso. apply above_snoc in B. destruct B as [->|B]; [|easy]. now rewrite path_eqb_refl in E. }
  rewrite Hl. destruct (HD _ Habove) as [H|H]; rewrite H.
  - destruct r as [|c' r].
    + exfalso. congruence.
    + rewrite Eb in *. apply IH; [easy|easy| |easy]. apply Hext. intros q.
      destruct (path_eqb (base ++ [c]) q) eqn:E; [|easy]. apply path_eqb_spec in E. subst q. now rewrite Hl.
  - destruct r as [|c' r].
    + cbn [makedirs_from]. eexists. split; [reflexivity|]. unfold extended. intros q. revert q. exact (Hext _ (lookup_cons _ _ _)).
    + rewrite Eb in *. apply IH; [easy|easy| |easy]. apply Hext. intros q. apply lookup_cons.
Qed.

Lemma fold_save dir ts : forall s q,
  lookup (fold_left (fun s t => save_npz s dir t) ts s) q =
  if existsb (fun t => path_eqb (dir ++ [t]) q) ts then Some File else lookup s q.
Proof.
  induction ts as [|t ts IH]; intros s q; [easy|]. cbn [fold_left existsb]. rewrite IH.
  unfold save_npz. rewrite lookup_cons, lookup_erase.
  destruct (path_eqb (dir ++ [t]) q), (existsb (fun t => path_eqb (dir ++ [t]) q) ts); easy.
Qed.

Lemma remove_all_spec dir fl : forall s, NoDup fl -> (forall f, In f fl -> lookup s (dir ++ [f]) = Some File) ->
  exists s', remove_all s dir fl = Done s' /\
    forall q, lookup s' q = if existsb (fun t => path_eqb (dir ++ [t]) q) fl then None else lookup s q.
Proof.
  induction fl as [|f fl IH]; intros s ND H; cbn [remove_all existsb].
  - now exists s.
  - unfold remove. rewrite (H f) by now left. inversion ND as [|? ? N1 N2]; subst.
    destruct (IH (erase s (dir ++ [f]))) as (s' & E & Hs').
    + easy.
    + intros g Hg. rewrite lookup_erase, path_eqb_neq; [apply H; now right|].
      intros C. apply app_inj_tail in C. destruct C as [_ ->]. easy.
    + exists s'. split; [easy|]. intros q. rewrite Hs', lookup_erase.
      now destruct (path_eqb (dir ++ [f]) q), (existsb (fun t => path_eqb (dir ++ [t]) q) fl).
Qed.

Lemma prune_spec s0 rp : forall s, well_formed s0 ->
  (forall q, above q (rev rp) -> lookup s0 q = Some Dir \/ lookup s0 q = None) ->
  (forall q, above q (rev rp) -> lookup s0 q = Some Dir -> occupied s0 q) ->
  extended s0 s (rev rp) -> same s0 (prune s rp).
Proof.
  induction rp as [|c r IH]; intros s W HD HO HE; cbn [prune].
  - intros q. rewrite HE. cbn. destruct (above_dec q []) as [[A [x B]]|A]; [|easy]. symmetry in B. apply app_eq_nil in B. tauto.
  - cbn [rev] in HD, HO, HE. assert (HN : rev r ++ [c] <> []) by now destruct (rev r).
    assert (Hself : lookup s (rev r ++ [c]) = Some Dir).
    { rewrite HE. destruct (above_dec (rev r ++ [c]) (rev r ++ [c])) as [A|A]; [easy|]. exfalso. now apply A, above_self. }
    destruct (HD _ (above_self _ HN)) as [H|H].
    + destruct (HO _ (above_self _ HN) H) as [x Hx].
      assert (Hr : rmdir s (rev (c :: r)) = OSError).
      { unfold rmdir. change (rev (c :: r)) with (rev r ++ [c]). rewrite Hself.
        destruct (rev r ++ [c]) as [|a l] eqn:E; [easy|]. rewrite <- E in *.
        destruct (listdir s (rev r ++ [c])) eqn:E2; [|easy]. exfalso. apply (proj1 (listdir_nil _ _)) with (x := x) in E2.
        apply Hx. rewrite HE in E2. destruct (above_dec ((rev r ++ [c]) ++ [x]) (rev r ++ [c])) as [A|A]; [easy|easy]. }
      rewrite Hr. intros q. rewrite HE. destruct (above_dec q (rev r ++ [c])) as [A|A]; [|easy].
      now apply (above_present s0 (rev r ++ [c])).
    + assert (Hr : rmdir s (rev (c :: r)) = Done (erase s (rev r ++ [c]))).
      { unfold rmdir. change (rev (c :: r)) with (rev r ++ [c]). rewrite Hself.
        destruct (rev r ++ [c]) as [|a l] eqn:E; [easy|]. rewrite <- E in *.
        assert (E2 : listdir s (rev r ++ [c]) = []).
        { apply listdir_nil. intros x. rewrite HE. destruct (above_dec ((rev r ++ [c]) ++ [x]) (rev r ++ [c])) as [A|A].
          - exfalso. now apply above_under in A.
          - now apply missing_below. }
        now rewrite E2. }
      rewrite Hr. apply IH; [easy| | |].
      * intros q Hq. apply HD. apply above_snoc. now right.
      * intros q Hq. apply HO. apply above_snoc. now right.
      * intros q. rewrite lookup_erase, HE. destruct (path_eqb (rev r ++ [c]) q) eqn:E.
        -- apply path_eqb_spec in E. subst q. destruct (above_dec (rev r ++ [c]) (rev r)) as [A|A]; [|easy].
           exfalso. now apply above_under in A.
        -- destruct (above_dec q (rev r ++ [c])) as [A|A], (above_dec q (rev r)) as [B|B]; try easy.
           ++ apply above_snoc in A. destruct A as [->|A]; [|easy]. now rewrite path_eqb_refl in E.
           ++ exfalso. apply A. apply above_snoc. now right.
Qed.

Lemma not_ext s s' p x : same s s' -> lookup s p = x -> lookup s' p = x.
Proof. intros H <-. symmetry. apply H. Qed.

Lemma erase_nodup s p : NoDup (map fst s) -> NoDup (map fst (erase s p)).
Proof.
  induction s as [|[q n] s IH]; intros H; [easy|]. cbn [map fst] in H. inversion H as [|? ? N1 N2]; subst.
  cbn [erase filter fst]. destruct (path_eqb q p); cbn [negb]; [auto|]. cbn [map fst]. constructor; [|auto].
  intros C. apply N1. apply in_map_iff in C. destruct C as (e & <- & C). apply filter_In in C. apply in_map. tauto.
Qed.
Lemma in_keys s p : In p (map fst s) -> lookup s p <> None.
Proof. intros H. apply in_map_iff in H. destruct H as ([q n] & <- & H). now apply lookup_in in H. Qed.
Lemma erase_not_in s p : ~ In p (map fst (erase s p)).
Proof. intros C. apply in_keys in C. apply C. now rewrite lookup_erase, path_eqb_refl. Qed.
Lemma save_nodup s d t : NoDup (map fst s) -> NoDup (map fst (save_npz s d t)).
Proof. intros H. unfold save_npz. cbn [map fst]. constructor; [apply erase_not_in|now apply erase_nodup]. Qed.
Lemma fold_save_nodup d ts : forall s, NoDup (map fst s) -> NoDup (map fst (fold_left (fun s t => save_npz s d t) ts s)).
Proof. induction ts as [|t ts IH]; intros s H; cbn; [easy|]. now apply IH, save_nodup. Qed.
Lemma makedirs_nodup rest : forall s base s', NoDup (map fst s) -> makedirs_from s base rest = Done s' -> NoDup (map fst s').
Proof.
  induction rest as [|c r IH]; intros s base s' H E; cbn [makedirs_from] in E; [congruence|].
  destruct (lookup s (base ++ [c])) as [[|]|] eqn:L.
  - destruct r; [easy|]. now apply IH in E.
  - easy.
  - apply IH in E; [easy|]. cbn [map fst]. constructor; [|easy]. intros C. now apply in_keys in C.
Qed.
Lemma listdir_nodup s p : NoDup (map fst s) -> NoDup (listdir s p).
Proof.
  induction s as [|[q n] s IH]; intros H; [constructor|]. inversion H as [|? ? N1 N2]; subst.
  unfold listdir. cbn [flat_map fst]. fold (listdir s p). destruct (rev q) as [|x r] eqn:E; [now apply IH|].
  destruct (path_eqb (rev r) p) eqn:E2; [|now apply IH]. cbn [app]. constructor; [|now apply IH].
  apply path_eqb_spec in E2. intros C. apply in_listdir in C. apply N1.
  assert (Hq : q = p ++ [x]) by (rewrite <- (rev_involutive q), E; cbn; now rewrite E2).
  destruct (in_dec (list_eq_dec string_dec) q (map fst s)) as [I|I]; [easy|]. exfalso. apply C. rewrite <- Hq.
  apply lookup_none. intros m Hm. apply I. now apply (in_map fst) in Hm.
Qed.

(** Setting up: the directories above [dir] are there in addition. *)
Lemma setup_spec s dir : well_formed s -> dir <> [] -> lookup s dir = None ->
  (forall q, above q dir -> lookup s q <> Some File) ->
  exists s1, setup_cache s dir true = Done s1 /\ extended s s1 dir /\ NoDup (map fst s1).
Proof.
  intros W N L HF. destruct (makedirs_from_spec s dir s []) as (s1 & E & X); try easy.
  - intros q Hq. specialize (HF q Hq). destruct (lookup s q) as [[|]|]; [now left|easy|now right].
  - intros q. destruct (above_dec q []) as [[A [x B]]|A]; [|easy]. symmetry in B. apply app_eq_nil in B. tauto.
  - exists s1. split; [|split; [easy|]].
    + unfold setup_cache, makedirs, isdir. rewrite L. now destruct dir.
    + apply makedirs_nodup in E; [easy|]. apply W.
Qed.

(** After setting up, writing and clearing, everything is as before. *)
Lemma fit_restores s dir targets : well_formed s -> dir <> [] -> lookup s dir = None ->
  (forall q, above q dir -> lookup s q <> Some File) ->
  (forall q, above q dir -> lookup s q = Some Dir -> occupied s q) ->
  exists s', fit s dir true targets false = Done s' /\ same s s'.
Proof.
  intros W N L HF HO. destruct (setup_spec s dir W N L HF) as (s1 & E & X & ND).
  unfold fit. rewrite E. unfold clear_cache.
  set (s2 := fold_left (fun s t => save_npz s dir t) targets s1).
  assert (ND2 : NoDup (map fst s2)) by (now apply fold_save_nodup).
  assert (L2 : forall q, lookup s2 q = if existsb (fun t => path_eqb (dir ++ [t]) q) targets then Some File else lookup s1 q)
    by (intros; apply fold_save).
  clearbody s2.
  assert (B1 : forall x, lookup s1 (dir ++ [x]) = None).
  { intros x. rewrite X. destruct (above_dec (dir ++ [x]) dir) as [A|A]; [exfalso; now apply above_under in A|].
    now apply missing_below. }
  assert (Hdir : forall x, lookup s2 (dir ++ [x]) = if existsb (String.eqb x) targets then Some File else None).
  { intros x. rewrite L2, B1.
    assert (Ex : existsb (fun t => path_eqb (dir ++ [t]) (dir ++ [x])) targets = existsb (String.eqb x) targets); [|now rewrite Ex].
    clear -x. induction targets as [|t ts IH]; [easy|]. cbn [existsb]. rewrite IH. f_equal.
    destruct (String.eqb_spec x t) as [->|D]; [apply path_eqb_refl|]. apply path_eqb_neq. intros C. apply app_inj_tail in C. destruct C. congruence. }
  destruct (remove_all_spec dir (listdir s2 dir) s2) as (s3 & E3 & L3).
  - now apply listdir_nodup.
  - intros f Hf. apply in_listdir in Hf. rewrite Hdir in *. now destruct (existsb (String.eqb f) targets).
  - rewrite E3.
    assert (X3 : extended s s3 dir).
    { intros q. rewrite L3. destruct (existsb (fun t => path_eqb (dir ++ [t]) q) (listdir s2 dir)) eqn:Ex.
      - apply existsb_exists in Ex. destruct Ex as (t & _ & Ht). apply path_eqb_spec in Ht. subst q.
        destruct (above_dec (dir ++ [t]) dir) as [A|A]; [exfalso; now apply above_under in A|]. symmetry. now apply missing_below.
      - rewrite L2. destruct (existsb (fun t => path_eqb (dir ++ [t]) q) targets) eqn:Ex2; [|apply X].
        exfalso. apply existsb_exists in Ex2. destruct Ex2 as (t & Ht & Hq).
        assert (Hi : In t (listdir s2 dir)).
        { apply in_listdir. rewrite Hdir. assert (existsb (String.eqb t) targets = true) as ->; [|easy].
          apply existsb_exists. exists t. split; [easy|]. apply String.eqb_refl. }
        assert (existsb (fun t => path_eqb (dir ++ [t]) q) (listdir s2 dir) = true); [|congruence].
        apply existsb_exists. now exists t. }
    destruct dir as [|a l] using rev_ind; [easy|]. clear IHl.
    assert (Hr : rmdir s3 (l ++ [a]) = Done (erase s3 (l ++ [a]))).
    { unfold rmdir. destruct (l ++ [a]) eqn:El; [easy|]. rewrite <- El in *.
      rewrite X3. destruct (above_dec (l ++ [a]) (l ++ [a])) as [A|A]; [|exfalso; now apply A, above_self].
      assert (El2 : listdir s3 (l ++ [a]) = []).
      { apply listdir_nil. intros x. rewrite X3. destruct (above_dec ((l ++ [a]) ++ [x]) (l ++ [a])) as [B|B];
        [exfalso; now apply above_under in B|]. now apply missing_below. }
      now rewrite El2. }
    unfold removedirs. rewrite Hr. eexists. split; [reflexivity|].
    rewrite rev_app_distr. cbn [tl rev app].
    assert (Hra : rev (rev l) = l) by apply rev_involutive.
    apply prune_spec; [easy| | |].
    + intros q Hq. rewrite Hra in Hq. assert (Hq' : above q (l ++ [a])) by (apply above_snoc; now right).
      specialize (HF q Hq'). destruct (lookup s q) as [[|]|]; [now left|easy|now right].
    + intros q Hq. rewrite Hra in Hq. apply HO. apply above_snoc. now right.
    + intros q. rewrite lookup_erase, X3, Hra. destruct (path_eqb (l ++ [a]) q) eqn:Eq.
      * apply path_eqb_spec in Eq. subst q. destruct (above_dec (l ++ [a]) l) as [A|A]; [exfalso; now apply above_under in A|]. easy.
      * destruct (above_dec q (l ++ [a])) as [A|A], (above_dec q l) as [B|B]; try easy.
        -- apply above_snoc in A. destruct A as [->|A]; [|easy]. now rewrite path_eqb_refl in Eq.
        -- exfalso. apply A. apply above_snoc. now right.
Qed.
