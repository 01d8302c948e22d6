(** C51: the cache directory. *)

From Coq Require Import List Bool String.
From Verif Require Import FileModel FileSpec FileProofs.
Import ListNotations.
Local Open Scope string_scope.
Local Open Scope list_scope.

(** A fit that does not crash leaves the working directory as it was, whatever it wrote to the cache, if the cache
    directory is new and none of the directories above it that exist already is empty (a cache directory directly
    in the working directory, such as the default, has none above it).  Without caching nothing changes at all. *)
Theorem C51_restored : forall s dir targets crash,
  well_formed s -> dir <> [] -> lookup s dir = None ->
  (forall q, above q dir -> lookup s q <> Some File) ->
  (forall q, above q dir -> lookup s q = Some Dir -> occupied s q) ->
  (exists s', fit s dir true targets false = Done s' /\ same s s') /\
  fit s dir false targets crash = Done s.
Proof.
  intros s dir targets crash W N L HF HO. split; [now apply fit_restores|].
  unfold fit, setup_cache, clear_cache. now destruct crash.
Qed.

(** A directory that is there already is not touched: the fit is refused. *)
Theorem C51_existing : forall s dir targets crash,
  lookup s dir = Some Dir -> fit s dir true targets crash = ValueError.
Proof.
  intros s dir targets crash L. unfold fit, setup_cache, isdir. rewrite L. now destruct dir.
Qed.

Definition home : fs := [(["data.csv"], File); (["tmp"], Dir); (["tmp"; "old"], File)].


Lemma home_wf : well_formed home.
Proof.
  split.
  - cbn. repeat constructor; cbn; intuition discriminate.
  - intros p c H. unfold lookup, home in H. cbn [find fst] in H.
    destruct (path_eqb ["data.csv"] (p ++ [c])) eqn:E1.
    { apply path_eqb_spec in E1. left. destruct p as [|? [|? ?]]; [easy|discriminate|discriminate]. }
    destruct (path_eqb ["tmp"] (p ++ [c])) eqn:E2.
    { apply path_eqb_spec in E2. left. destruct p as [|? [|? ?]]; [easy|discriminate|discriminate]. }
    destruct (path_eqb ["tmp"; "old"] (p ++ [c])) eqn:E3; [|easy].
    apply path_eqb_spec in E3. right. destruct p as [|? [|? [|? ?]]]; try discriminate. injection E3 as <- <-. reflexivity.
Qed.

(** The default directory, and one below directories of which one exists. *)
Example C51_case :
  (exists s', fit home [".db"] true ["a_0.npz"; "a_1.npz"; "a_0.npz"] false = Done s' /\ same home s') /\
  (exists s', fit home ["tmp"; "x"; "y"] true ["a_0.npz"] false = Done s' /\ same home s').
Proof.
  split.
  - apply (C51_restored home [".db"] ["a_0.npz"; "a_1.npz"; "a_0.npz"] true home_wf); [easy|reflexivity| |].
    + intros q A. destruct A as [N [r E]]. destruct q as [|? [|? ?]]; cbn in E; try easy. injection E as <- <-. easy.
    + intros q A. destruct A as [N [r E]]. destruct q as [|? [|? ?]]; cbn in E; try easy. injection E as <- <-. easy.
  - apply (C51_restored home ["tmp"; "x"; "y"] ["a_0.npz"] true home_wf); [easy|reflexivity| |].
    + intros q A. destruct A as [N [r E]]. destruct q as [|? [|? [|? [|? ?]]]]; cbn in E; try easy; injection E; intros; subst; easy.
    + intros q A. destruct A as [N [r E]]. destruct q as [|? [|? [|? [|? ?]]]]; cbn in E; try easy; injection E; intros; subst; try easy.
      exists "old". easy.
Qed.

(** An empty directory that was there before is removed if the cache directory is created in it. *)
Theorem C51_nested_refuted : exists s dir targets s',
  well_formed s /\ dir <> [] /\ lookup s dir = None /\ (forall q, above q dir -> lookup s q <> Some File) /\
  fit s dir true targets false = Done s' /\ lookup s ["work"] = Some Dir /\ lookup s' ["work"] = None.
Proof.
  exists [(["work"], Dir)], ["work"; "cache"], ["a_0.npz"]. eexists. split; [|split; [easy|split; [reflexivity|split; [|split; [reflexivity|split; reflexivity]]]]].
  - split; [repeat constructor; easy|]. intros p c H. unfold lookup in H. cbn [find fst] in H.
    destruct (path_eqb ["work"] (p ++ [c])) eqn:E; [|easy]. apply path_eqb_spec in E. left.
    destruct p as [|? [|? ?]]; [easy|discriminate|discriminate].
  - intros q A. destruct A as [N [r E]]. destruct q as [|? [|? [|? ?]]]; cbn in E; try easy; injection E; intros; subst; easy.
Qed.

(** After a fit that crashed between setting up and clearing, every other fit that caches is refused. *)
Theorem C51_crash_refuted : forall s dir targets,
  well_formed s -> dir <> [] -> lookup s dir = None -> (forall q, above q dir -> lookup s q <> Some File) ->
  exists s', fit s dir true targets true = Done s' /\ forall targets' crash, fit s' dir true targets' crash = ValueError.
Proof.
  intros s dir targets W N L HF. destruct (setup_spec s dir W N L HF) as (s1 & E & X & _).
  unfold fit at 1. rewrite E. eexists. split; [reflexivity|]. intros targets' crash. apply C51_existing.
  rewrite fold_save, X. destruct (existsb (fun t => path_eqb (dir ++ [t]) dir) targets) eqn:Ex.
  - exfalso. apply existsb_exists in Ex. destruct Ex as (t & _ & Ht). apply path_eqb_spec in Ht.
    apply (f_equal (@List.length string)) in Ht. rewrite app_length in Ht. cbn in Ht.
    rewrite PeanoNat.Nat.add_1_r in Ht. now apply PeanoNat.Nat.neq_succ_diag_l in Ht.
  - destruct (above_dec dir dir) as [A|A]; [easy|]. exfalso. now apply A, above_self.
Qed.
Example C51_crash_case :
  exists s', fit home [".db"] true ["a_0.npz"] true = Done s' /\ lookup home [".db"] = None /\ lookup s' [".db"; "a_0.npz"] = Some File.
Proof. eexists. split; [reflexivity|]. split; reflexivity. Qed.

Print Assumptions C51_restored.
Print Assumptions C51_existing.
Print Assumptions C51_nested_refuted.
Print Assumptions C51_crash_refuted.
