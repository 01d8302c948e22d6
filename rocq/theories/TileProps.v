(** Positions of penalties: theorems. *)

From Coq Require Import List Bool Arith Lia.
From Verif Require Import FormModel FormSpec FormProofs4 TileModel TileSpec TileProofs.
Import ListNotations.

(** *** C46: penalties tile the coefficient vector

    Whenever build_penalties returns, every penalty belongs to a penalised term and covers whole blocks of
    the coefficients that are allotted to that term; every coefficient of a penalised term is covered; the
    unpenalised coefficients come first. *)
Theorem C46_penalties_tile (K : Type) (e : env) (terms : list (term K)) (spec : nat -> pspec) (pens : list pen) :
  (forall ti t, nth_error terms ti = Some t -> spec_ok K e t (spec ti)) ->
  build_penalties K e terms spec = Some pens ->
  let info := get_coef_info e terms in
  (forall p, In p pens -> exists t start n,
     nth_error terms (p_term p) = Some t /\ In (p_term p, (start, n)) (in_terms info) /\ penalised K t = true /\
     total (blocks K e t (spec (p_term p))) = n /\ on_blocks start (blocks K e t (spec (p_term p))) p) /\
  (forall ti t start n j, nth_error terms ti = Some t -> In (ti, (start, n)) (in_terms info) ->
     start <= j < start + n -> if penalised K t then covered ti pens j /\ in_unpen info <= j else j < in_unpen info).
Proof.
  intros Hok HB info.
  assert (Hn : Forall (fun p => nth_error terms (fst p) = Some (snd p)) (ordered K terms)) by apply ordered_nth.
  assert (Hs : Forall (fun p => spec_ok K e (snd p) (spec (fst p))) (ordered K terms)).
  { eapply Forall_impl; [|exact Hn]. intros [i t] H. apply Hok. exact H. }
  pose proof (ordered_sorted K terms) as Hso.
  destruct (info_ranges K e terms (ordered K terms) (has_intercept terms) (Info 0 0 [] []) Hn) as (A & B & D).
  rewrite <- ordered_visit in A, B, D. cbn [in_terms in_n in_unpen app Nat.add] in A, B, D.
  change (info_loop e terms (visit terms) (has_intercept terms) (Info 0 0 [] [])) with info in A, B, D.
  unfold build_penalties in HB. fold info in HB.
  destruct (pen_loop K e terms spec (visit terms) (St [] (in_unpen info) (in_unpen info) (in_unpen info))) as [st|] eqn:EL;
    [|discriminate].
  destruct (Nat.eqb_spec (st_cur st) (in_n info)) as [EC|]; [|discriminate]. injection HB as <-.
  rewrite ordered_visit in EL.
  destruct (phase1 K e terms spec _ _ _ Hn Hso Hs EL) as (l0 & l1 & EO & H0 & H1).
  rewrite EO in *. rewrite map_app in EL. apply Forall_app in Hn. destruct Hn as [Hn0 Hn1].
  apply Forall_app in Hs. destruct Hs as [_ Hs1]. apply sorted_app in Hso.
  rewrite (skip_unpenalised K e terms spec l0 (map fst l1) (in_unpen info) Hn0 H0) in EL.
  set (c := in_unpen info + ahead K e l0) in EL.
  destruct (phase2 K e terms spec (has_intercept terms) l1 (after K e (has_intercept terms) l0) (St [] c c c) c Hn1 H1 Hs1 Hso eq_refl (or_intror eq_refl)) as (ps & st' & F1 & F2 & F3 & F4).
  rewrite F1 in EL. injection EL as ->. cbn [st_pens app] in F2. rewrite F2. unfold c in *.
  rewrite count_app in B. rewrite unpen_app, unpen_all, unpen_none, Nat.add_0_r in D by assumption.
  assert (EA : ahead K e l0 = 0) by lia.
  rewrite EA, Nat.add_0_r, D in F4. rewrite ranges_app in A. cbn [Nat.add] in A.
  destruct F4 as [P1 P2]. split.
  - intros p Hp. destruct (P1 p Hp) as (t & start & n & Q1 & Q2 & Q3). exists t, start, n.
    split; [exact Q1|]. split; [|exact Q3]. rewrite A. apply in_or_app. right. exact Q2.
  - intros ti t start n j Ht Hin Hj. rewrite A in Hin. apply in_app_or in Hin.
    assert (LO : forall l h c i s m, In (i, (s, m)) (ranges K e (has_intercept terms) h c l) ->
                 c <= s /\ s + m <= c + count K e (has_intercept terms) h l).
    { clear. induction l as [|[i t] l IH]; intros h c i' s m H; simpl in H; [contradiction|]. simpl.
      destruct H as [H|H]; [injection H as _ <- <-; lia|]. apply IH in H. lia. }
    destruct Hin as [Hin|Hin].
    + destruct (ranges_in K e _ _ _ _ _ _ _ Hin) as [t' It]. 
      pose proof (proj1 (Forall_forall _ _) Hn0 _ It) as N0. pose proof (proj1 (Forall_forall _ _) H0 _ It) as U0.
      cbn [fst snd] in N0, U0. rewrite Ht in N0. injection N0 as <-. rewrite U0.
      apply LO in Hin. lia.
    + destruct (ranges_in K e _ _ _ _ _ _ _ Hin) as [t' It].
      pose proof (proj1 (Forall_forall _ _) Hn1 _ It) as N0. pose proof (proj1 (Forall_forall _ _) H1 _ It) as U0.
      cbn [fst snd] in N0, U0. rewrite Ht in N0. injection N0 as <-. rewrite U0.
      split; [apply (P2 ti t start n j Ht U0 Hin Hj)|]. apply LO in Hin. lia.
Qed.

(** It returns if no impulse response is unpenalised and unpenalised smooths come before penalised ones. *)
Theorem C46_penalties_built (K : Type) (e : env) (terms : list (term K)) (spec : nat -> pspec) (l0 l1 : list (nat * term K)) :
  (forall ti t, nth_error terms ti = Some t -> spec_ok K e t (spec ti)) ->
  ordered K terms = l0 ++ l1 ->
  Forall (fun p => penalised K (snd p) = false /\ kind K (snd p) <> 1) l0 ->
  Forall (fun p => penalised K (snd p) = true) l1 ->
  exists pens, build_penalties K e terms spec = Some pens.
Proof.
  intros Hok EO H0 H1.
  assert (Hn : Forall (fun p => nth_error terms (fst p) = Some (snd p)) (ordered K terms)) by apply ordered_nth.
  assert (Hs : Forall (fun p => spec_ok K e (snd p) (spec (fst p))) (ordered K terms)).
  { eapply Forall_impl; [|exact Hn]. intros [i t] H. apply Hok. exact H. }
  pose proof (ordered_sorted K terms) as Hso.
  destruct (info_ranges K e terms (ordered K terms) (has_intercept terms) (Info 0 0 [] []) Hn) as (A & B & D).
  rewrite <- ordered_visit in A, B, D. cbn [in_terms in_n in_unpen app Nat.add] in A, B, D.
  change (info_loop e terms (visit terms) (has_intercept terms) (Info 0 0 [] [])) with (get_coef_info e terms) in A, B, D.
  unfold build_penalties. rewrite ordered_visit.
  rewrite EO in *. rewrite map_app. apply Forall_app in Hn. destruct Hn as [Hn0 Hn1].
  apply Forall_app in Hs. destruct Hs as [_ Hs1]. apply sorted_app in Hso.
  assert (U0 : Forall (fun p => penalised K (snd p) = false) l0) by (eapply Forall_impl; [|exact H0]; intros p [H _]; exact H).
  assert (A0 : ahead K e l0 = 0).
  { clear - H0. induction H0 as [|[i t] l [P Q] H IH]; simpl; [reflexivity|]. rewrite IH.
    destruct t; simpl in *; try reflexivity. congruence. }
  cbn zeta.
  rewrite (skip_unpenalised K e terms spec l0 (map fst l1) _ Hn0 U0).
  destruct (phase2 K e terms spec (has_intercept terms) l1 (after K e (has_intercept terms) l0)
              (St [] (in_unpen (get_coef_info e terms) + ahead K e l0) (in_unpen (get_coef_info e terms) + ahead K e l0)
                     (in_unpen (get_coef_info e terms) + ahead K e l0)) _ Hn1 H1 Hs1 Hso eq_refl (or_intror eq_refl))
    as (ps & st' & F1 & F2 & F3 & F4).
  rewrite F1, F3. cbn [st_cur]. rewrite count_app in B. rewrite unpen_app, unpen_all, unpen_none, Nat.add_0_r in D by assumption.
  rewrite A0, D, Nat.add_0_r, B, Nat.eqb_refl. eexists. reflexivity.
Qed.

(** An unpenalised impulse response is counted twice, so that its formula is refused. *)
Theorem C46_unpenalised_irf_refuted :
  exists (e : env) (terms : list (term nat)) (spec : nat -> pspec),
    (forall ti t, nth_error terms ti = Some t -> spec_ok nat e t (spec ti)) /\
    Forall (fun p => penalised nat (snd p) = false) (ordered nat terms) /\
    build_penalties nat e terms spec = None.
Proof.
  exists (Env (fun _ => Numeric) (fun _ => []) (fun _ k => k)).
  exists [TI; TIrf (Irf [0] [5] None false 1 (fun _ _ n => Mat n (fun _ _ => 0)))].
  exists (fun _ => PSpec false 1 false None (fun _ => 0)).
  split; [|split].
  - intros [|[|ti]] t E; simpl in E; [injection E as <-; exact I| |destruct ti; discriminate].
    injection E as <-. simpl. split; [lia|exact I].
  - repeat constructor.
  - vm_compute. reflexivity.
Qed.

(** An intercept, a penalised impulse response per level, a smooth per level with one shared penalty and a
    null penalty, a tensor smooth with a null penalty, a random intercept and random slopes. *)
Example C46_case :
  let e := Env (fun v => if v =? 3 then Factor else Numeric) (fun _ => [7; 8; 9]) (fun _ k => k) in
  let sm vars nk by_var := TF (Smooth vars nk false true [] [] (fun _ n => Mat n (fun _ _ => 0)) by_var None None None true) in
  let terms : list (term nat) :=
    [TRi 3; sm [0] [4] (Some 3); TI; sm [0; 1] [2; 3] None; TRs [0] (Some 3);
     TIrf (Irf [2] [5] (Some 3) true 1 (fun _ _ n => Mat n (fun _ _ => 0)))] in
  let spec ti := match ti with 1 => PSpec true 1 true (Some 2) (fun _ => 0) | 3 => PSpec false 2 true None (fun _ => 0)
                 | _ => PSpec false 1 false None (fun _ => 0) end in
  (forall ti t, nth_error terms ti = Some t -> spec_ok nat e t (spec ti)) /\
  build_penalties nat e terms spec
  = Some [Pen 5 1 5 1; Pen 5 6 5 1; Pen 5 11 5 1; Pen 1 16 4 3; Pen 1 16 4 3; Pen 1 16 4 3;
          Pen 3 28 6 1; Pen 3 28 6 1; Pen 3 28 6 1; Pen 0 34 3 1; Pen 4 37 1 1; Pen 4 38 1 1; Pen 4 39 1 1].
Proof.
  split; [|vm_compute; reflexivity].
  intros ti t E. do 6 (destruct ti as [|ti]; [injection E as <-; simpl; repeat split; try exact I; try discriminate; try lia|]).
  destruct ti; discriminate.
Qed.

Print Assumptions C46_penalties_tile.
Print Assumptions C46_penalties_built.
Print Assumptions C46_unpenalised_irf_refuted.
