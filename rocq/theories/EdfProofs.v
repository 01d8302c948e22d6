(** The degrees of freedom of a single term. *)

From Coq Require Import List Arith Bool Lia Permutation Ring Sorted.
From Verif Require Import PenModel PenSpec PenProofs PenProofs2 PenProofs3 PenProofs4 PenProofs5 PenProofs6.
Import ListNotations.
Local Open Scope nat_scope.

Section Edf.
Variable K : Type.
Variables (k0 k1 : K) (kadd kmul ksub : K -> K -> K) (kopp : K -> K).
Variable Kring : ring_theory k0 k1 kadd kmul ksub kopp (@eq K).
Notation lterm := (lterm K).
Notation lsum := (@lsum K k0 kadd _).

(** One entry per first coefficient, in increasing order: the number of coefficients minus the shares of all
    penalties on them. *)
Lemma term_edfs (ps : list lterm) ms B colsX total pp Bs tedf :
  good ps -> laid_out ps -> combine_shared_penalties kadd ps = Some ms ->
  calculate_edf k0 kadd kmul ksub B colsX ms = (total, pp, Bs) ->
  calculate_term_edf k0 k1 kadd ksub ms pp = Some tedf ->
  exists starts, StronglySorted lt starts /\ (forall s, In s starts <-> exists p, In p ps /\ t_start p = s) /\
    Forall2 (fun s e => forall p, In p ps -> t_start p = s ->
      e = ksub (kof k0 k1 kadd (t_dim p * t_rep p)) (lsum (fun q => kmul (t_lam q) (B q)) (filter (fun q => t_start q =? s) ps))) starts tedf.
Proof.
  intros Hg Hl Hc He Ht.
  destruct (split_order K k0 kadd ps ms Hg Hc) as (HP & HS & Hk & Hno & HK).
  set (qs := split_shared_penalties ms) in *.
  set (w := fun p => kmul (t_lam p) (B p)).
  unfold calculate_edf in He. injection He; intros _ E2 E1; clear He.
  fold qs in E1, E2. fold w in E1, E2.
  unfold calculate_term_edf in Ht. fold qs in Ht. rewrite <- E2, combine_map_r in Ht.
  destruct (edf_loop kadd true 0 [] (map (fun x => (x, w x)) qs)) as [gs|] eqn:El; [|discriminate].
  inversion Ht; subst tedf; clear Ht.
  pose proof (edf_loop_spec K k0 k1 kadd kmul ksub kopp Kring w qs gs HS El) as Hinv.
  exists (map (@e_start K) gs). split; [apply (ei_incr _ _ _ _ _ _ Hinv)|]. split.
  - intros s. rewrite (ei_in _ _ _ _ _ _ Hinv). split; intros [p [Hp e]]; exists p; (split; [|assumption]).
    + eapply Permutation_in; eauto.
    + eapply Permutation_in; [symmetry; exact HP|assumption].
  - assert (G : forall g, In g gs -> forall p, In p ps -> t_start p = e_start g ->
      ksub (kof k0 k1 kadd (e_n g)) (e_pen g) = ksub (kof k0 k1 kadd (t_dim p * t_rep p)) (lsum w (filter (fun q => t_start q =? e_start g) ps))).
    { intros g Hgs p Hp e. rewrite (ei_n _ _ _ _ _ _ Hinv g p Hgs (Permutation_in _ (Permutation_sym HP) Hp) e).
      f_equal. rewrite (ei_pen _ _ _ _ _ _ Hinv g Hgs). apply (lsum_perm Kring w).
      clear -HP. induction HP as [|x l l' HP ih|x y l|]; simpl.
      - constructor.
      - destruct (t_start x =? _); [now constructor|assumption].
      - destruct (t_start x =? _), (t_start y =? _); first [apply perm_swap | reflexivity].
      - etransitivity; eauto. }
    clear - G. induction gs as [|g gs ih]; simpl; constructor.
    + intros p Hp e. apply G; auto. now left.
    + apply ih. intros g' Hg'. apply G. now right.
Qed.
End Edf.
