From Coq Require Import List Arith ZArith Reals Lia Lra Psatz Sorting.Permutation.
From Coquelicot Require Import Coquelicot.
From Verif Require Import DavModel DavSpec.
Import ListNotations.
Local Open Scope R_scope.

(** ** order *)
Lemma upd_eq th i v : upd th i v i = v.
Proof. unfold upd. now rewrite Nat.eqb_refl. Qed.
Lemma upd_ne th i v k : k <> i -> upd th i v k = th k.
Proof. intros H. unfold upd. apply Nat.eqb_neq in H. now rewrite H. Qed.

Lemma order_S lb r th0 : order lb (S r) th0 = order_step lb (order lb r th0) r.
Proof. unfold order. rewrite seq_S, fold_left_app. reflexivity. Qed.

Lemma order_range lb r th0 : forall j, (j < r)%nat -> (order lb r th0 j < r)%nat.
Proof.
  induction r as [|r IH]; intros j Hj; [lia|]. rewrite order_S. unfold order_step.
  destruct r as [|k].
  - assert (j = 0%nat) by lia. subst. rewrite upd_eq. lia.
  - destruct (Rlt_dec _ _).
    + destruct (Nat.eq_dec j 0) as [->|N]; [rewrite upd_eq; lia|]. rewrite upd_ne by exact N.
      destruct (Nat.eq_dec j (S k)) as [->|N2]; [rewrite upd_eq; specialize (IH k); lia|]. rewrite upd_ne by exact N2.
      specialize (IH j). lia.
    + destruct (Nat.eq_dec j (S k)) as [->|N2]; [rewrite upd_eq; lia|]. rewrite upd_ne by exact N2. specialize (IH j). lia.
Qed.

Lemma order_id lb r th0 : (forall i, (S i < r)%nat -> Rabs (lb (S i)) <= Rabs (lb i)) -> forall j, (j < r)%nat -> order lb r th0 j = j.
Proof.
  induction r as [|r IH]; intros H j Hj; [lia|]. rewrite order_S. unfold order_step.
  assert (IH' : forall j, (j < r)%nat -> order lb r th0 j = j) by (apply IH; intros i Hi; apply H; lia).
  destruct r as [|k].
  - assert (j = 0%nat) by lia. subst. apply upd_eq.
  - rewrite (IH' k) by lia. destruct (Rlt_dec _ _) as [L|L]; [specialize (H k); lra || (specialize (H ltac:(lia)); lra)|].
    destruct (Nat.eq_dec j (S k)) as [->|N2]; [apply upd_eq|]. rewrite upd_ne by exact N2. apply IH'. lia.
Qed.

(** ** errbd *)
Lemma errbd_spec vars sigsq u : exists_at vars u ->
  exists s xc, errbd vars sigsq u = (exp1 (- / 2 * s), xc) /\ is_derive (cumulant vars sigsq) u xc /\
    - / 2 * s = cumulant vars sigsq u - u * xc.
Proof.
  intros H. unfold errbd.
  set (F := fun v acc => _). set (acc0 := (u * (u * sigsq), u * sigsq)).
  assert (G : is_derive (fun u => fold_right (fun v a => let '(l, n, nc) := v in (- (n / 2) * ln (1 - 2 * u * l) + nc * (l * u) / (1 - 2 * u * l)) + a) 0 vars)
      u (snd (fold_right F acc0 vars) - u * sigsq) /\
    - / 2 * fst (fold_right F acc0 vars) = / 2 * sigsq * (u * u)
      + fold_right (fun v a => let '(l, n, nc) := v in (- (n / 2) * ln (1 - 2 * u * l) + nc * (l * u) / (1 - 2 * u * l)) + a) 0 vars
      - u * snd (fold_right F acc0 vars)).
  { induction H as [|v vs Hv H IH].
    - cbn [fold_right acc0 fst snd]. split; [|field].
      replace (u * sigsq - u * sigsq) with 0 by lra. apply is_derive_Reals, derivable_pt_lim_const.
    - destruct v as [[l n] nc]. cbn [fst snd] in Hv. cbn [fold_right]. destruct IH as [D E].
      set (q := fold_right F acc0 vs) in *. assert (Q : F (l, n, nc) q =
        (fst q + nc * (2 * u * l / (1 - 2 * u * l) * (2 * u * l / (1 - 2 * u * l))) + n * (2 * u * l * (2 * u * l) / (1 - 2 * u * l) + (ln (1 + - (2 * u * l)) - - (2 * u * l))),
         snd q + l * (nc / (1 - 2 * u * l) + n) / (1 - 2 * u * l))) by (unfold F; destruct q; reflexivity).
      rewrite Q. cbn [fst snd]. split.
      + replace (snd q + l * (nc / (1 - 2 * u * l) + n) / (1 - 2 * u * l) - u * sigsq)
          with ((- (n / 2) * (- (2 * l) / (1 - 2 * u * l)) + nc * l / ((1 - 2 * u * l) * (1 - 2 * u * l))) + (snd q - u * sigsq)) by (field; lra).
        apply (is_derive_plus (fun u => - (n / 2) * ln (1 - 2 * u * l) + nc * (l * u) / (1 - 2 * u * l)) _ u); [|exact D].
        auto_derive; [repeat split; lra|]. field. lra.
      + replace (1 + - (2 * u * l)) with (1 - 2 * u * l) by lra.
        set (L := ln (1 - 2 * u * l)) in *. set (R0 := fold_right _ 0 vs) in *.
        assert (X : - / 2 * fst q = / 2 * sigsq * (u * u) + R0 - u * snd q) by exact E.
        replace (- / 2 * (fst q + nc * (2 * u * l / (1 - 2 * u * l) * (2 * u * l / (1 - 2 * u * l))) + n * (2 * u * l * (2 * u * l) / (1 - 2 * u * l) + (L - - (2 * u * l)))))
          with (- / 2 * fst q - / 2 * (nc * (2 * u * l / (1 - 2 * u * l) * (2 * u * l / (1 - 2 * u * l))) + n * (2 * u * l * (2 * u * l) / (1 - 2 * u * l) + (L - - (2 * u * l))))) by ring.
        rewrite X. field. lra. }
  destruct (fold_right F acc0 vars) as [s xc]. cbn [fst snd] in G. destruct G as [D E].
  exists s, xc. split; [reflexivity|]. unfold cumulant. split.
  - replace xc with (u * sigsq + (xc - u * sigsq)) by lra.
    apply (is_derive_plus (fun u => / 2 * sigsq * (u * u)) _ u); [|exact D]. auto_derive; [exact I|]. field.
  - exact E.
Qed.

(** ** control flow *)
Section Control.
Variable lim : nat.
(** [x] answers, with at most lim + 1 counted calls, and P holds of what it answers with. *)
Definition sat {A} (k : nat) (P : A -> Prop) (x : res A) : Prop :=
  match x with
  | Stuck => False
  | Fault e c => (e = 1%Z \/ e = 4%Z) /\ (c <= S lim)%nat
  | Done a c => (k <= c <= lim)%nat /\ P a
  end.

Lemma sat_bind {A B} k k' (P : A -> Prop) (Q : B -> Prop) x f :
  sat k P x -> (forall a c, (k <= c <= lim)%nat -> P a -> sat k' Q (f a c)) -> sat k' Q (bind x f).
Proof. destruct x as [|e c|a c]; cbn; [easy| |]; intros H F; [exact H|]. apply F; apply H. Qed.

Lemma sat_call {A} (a : A) count : (count <= lim)%nat -> sat (S count) (fun b => b = a) (call lim a count).
Proof. intros H. unfold call. destruct (lim <? S count)%nat eqn:E; [apply Nat.ltb_lt in E|apply Nat.ltb_ge in E]; cbn; [split; [now right|lia]|split; [lia|reflexivity]]. Qed.

Lemma sat_weaken {A} k k' (P Q : A -> Prop) x : (k' <= k)%nat -> (forall a, P a -> Q a) -> sat k P x -> sat k' Q x.
Proof. intros L I. destruct x; cbn; [easy|easy|]. intros [A1 A2]. split; [lia|auto]. Qed.

Definition any {A} : A -> Prop := fun _ => True.

Variable trunc_err : R -> R -> R -> R.
Variable err_bound : R -> R -> R * R.

Lemma sat_grow fuel accx sigsq : forall ut count, (count <= lim)%nat -> (lim <= count + fuel)%nat -> sat (S count) any (grow trunc_err lim fuel accx sigsq ut count).
Proof.
  induction fuel as [|f IH]; intros ut count H F; cbn [grow];
    (eapply sat_bind; [apply sat_call; exact H|]; intros a c' Hc _; cbv beta; destruct (Rlt_dec _ _); [|cbn; unfold any; split; [lia|exact I]]).
  - lia.
  - eapply sat_weaken; [|intros; exact I|apply IH; lia]. lia.
Qed.
Lemma sat_shrink fuel accx sigsq : forall ut u count, (count <= lim)%nat -> (lim <= count + fuel)%nat -> sat (S count) any (shrink trunc_err lim fuel accx sigsq ut u count).
Proof.
  induction fuel as [|f IH]; intros ut u count H F; cbn [shrink];
    (eapply sat_bind; [apply sat_call; exact H|]; intros a c' Hc _; cbv beta; destruct (Rle_dec _ _); [|cbn; unfold any; split; [lia|exact I]]).
  - lia.
  - eapply sat_weaken; [|intros; exact I|apply IH; lia]. lia.
Qed.
Lemma sat_refine divs accx sigsq : forall ut count, (count <= lim)%nat -> sat count any (refine trunc_err lim divs accx sigsq ut count).
Proof.
  induction divs as [|d r IH]; intros ut count H; cbn [refine]; [cbn; unfold any; split; [lia|exact I]|].
  eapply sat_bind; [apply sat_call; exact H|]. intros a c' Hc _. cbv beta. eapply sat_weaken; [|intros; exact I|apply IH; lia]. lia.
Qed.
Lemma sat_findu accx sigsq utx count : (count <= lim)%nat -> sat (S count) any (findu trunc_err lim lim accx sigsq utx count).
Proof.
  intros H. unfold findu. eapply sat_bind with (k := S count) (P := any).
  - eapply sat_bind; [apply sat_call; exact H|]. intros a c' Hc _. cbv beta.
    destruct (Rlt_dec _ _); [eapply sat_weaken; [|intros; exact I|apply sat_grow; lia]; lia|eapply sat_weaken; [|intros; exact I|apply sat_shrink; lia]; lia].
  - intros a c' Hc _. eapply sat_weaken; [|intros; exact I|apply sat_refine; lia]. lia.
Qed.
Lemma sat_widen fuel accx sigsq rb : forall u1 c1 u2 count, (count <= lim)%nat -> (lim <= count + fuel)%nat -> sat (S count) any (widen err_bound lim fuel accx sigsq rb u1 c1 u2 count).
Proof.
  induction fuel as [|f IH]; intros u1 c1 u2 count H F; cbn [widen];
    (eapply sat_bind; [apply sat_call; exact H|]; intros a c' Hc _; cbv beta; destruct (Rlt_dec _ _); [|cbn; unfold any; split; [lia|exact I]]).
  - lia.
  - eapply sat_weaken; [|intros; exact I|apply IH; lia]. lia.
Qed.
Lemma sat_narrow fuel accx sigsq rb mean : forall u1 c1 u2 c2 count, (count <= lim)%nat -> (lim <= count + fuel)%nat -> sat count any (narrow err_bound lim fuel accx sigsq rb mean u1 c1 u2 c2 count).
Proof.
  induction fuel as [|f IH]; intros u1 c1 u2 c2 count H F; cbn [narrow]; (destruct (Rlt_dec _ (9 / 10)); [|cbn; unfold any; split; [lia|exact I]]);
    (eapply sat_bind; [apply sat_call; exact H|]; intros a c' Hc _; cbv beta).
  - lia.
  - destruct (Rlt_dec _ _); (eapply sat_weaken; [|intros; exact I|apply IH; lia]; lia).
Qed.
Lemma sat_ctff accx sigsq lmin lmax mean upn count : (count <= lim)%nat -> sat (S count) any (ctff err_bound lim lim accx sigsq lmin lmax mean upn count).
Proof.
  intros H. unfold ctff. eapply sat_bind; [apply sat_widen; lia|]. intros [[[u1 c1] u2] c2] c' Hc _. cbv beta iota.
  eapply sat_weaken; [|intros; exact I|apply sat_narrow; lia]. lia.
Qed.

Lemma nearest_le x : IZR (nearest x) <= x + / 2.
Proof. unfold nearest. destruct (base_Int_part (x + / 2)). lra. Qed.

Variable cfe_val : R -> R * bool.
Variable integral : Z -> R -> R -> bool -> R -> R * R.
Variables c acc sigma : R.

(** The terms used so far, given what is left of lim. *)
Definition stage_ok (s : stage) : Prop :=
  match s with
  | Out q => q = 0 \/ q = 1
  | Main intl ersm intv xnt xlim sigsq terms ints => terms <= INR lim - xlim + 3 / 2 * ints /\ 0 <= ints
  end.

Lemma sat_range fuel lmin lmax mean : forall up un acc1 sigsq utx xlim intl ersm terms ints count,
  (count <= lim)%nat -> (lim <= count + fuel)%nat -> terms <= INR lim - xlim + 3 / 2 * ints -> 0 <= ints ->
  sat count stage_ok (range trunc_err err_bound cfe_val integral lim c fuel lmin lmax mean up un acc1 sigsq utx xlim intl ersm terms ints count).
Proof.
  induction fuel as [|f IH]; intros up un acc1 sigsq utx xlim intl ersm terms ints count H F T Ti; cbn [range];
    (eapply sat_bind; [apply sat_ctff; exact H|]; intros a c1' Hc1 _; cbv beta zeta;
     destruct (Rlt_dec (snd a - c) 0); [cbn; split; [lia|now right]|];
     eapply sat_bind; [apply sat_ctff; lia|]; intros b c2' Hc2 _; cbv beta;
     destruct (Rlt_dec (c - snd b) 0); [cbn; split; [lia|now left]|]).
  - lia.
  - match goal with |- context [Rlt_dec (3 / sqrt acc1 * _) ?e] => destruct (Rlt_dec (3 / sqrt acc1 * (15 / 10)) e) as [B1|B1] end;
      [|cbn; split; [lia|split; assumption]].
    destruct (Rlt_dec xlim (3 / sqrt acc1)) as [B2|B2]; [cbn; split; [now left|lia]|].
    match goal with |- context [Rlt_dec (Rabs c) ?e] => destruct (Rlt_dec (Rabs c) e) as [B3|B3] end;
      [|cbn; split; [lia|split; assumption]].
    eapply sat_bind; [apply sat_call; lia|]. intros k1 c3 Hc3 _. cbv beta.
    eapply sat_bind; [apply sat_call; lia|]. intros k2 c4 Hc4 _. cbv beta.
    destruct (snd k1 || snd k2)%bool; [cbn; split; [lia|split; assumption]|].
    destruct (integral _ _ _ false sigsq) as [di de].
    eapply sat_bind; [apply sat_findu; lia|]. intros utx' c5 Hc5 _. cbv beta.
    eapply sat_weaken; [|intros ? X; exact X|apply IH; [lia|lia| |lra]]; [lia|].
    pose proof (nearest_le (3 / sqrt acc1)). lra.
Qed.

Lemma sat_factor almx sd sigsq utx count : (count <= lim)%nat -> sat count any (factor trunc_err cfe_val lim c acc almx sd sigsq utx count).
Proof.
  intros H. unfold factor. assert (Z0 : forall n k (x : R * R), (k <= n <= lim)%nat -> sat k any (Done x n)) by (intros; cbn; unfold any; split; [lia|exact I]).
  destruct (Req_EM_T c 0); [apply Z0; lia|]. destruct (Rlt_dec _ almx); [|apply Z0; lia].
  eapply sat_bind; [apply sat_call; exact H|]. intros k c' Hc _. cbv beta. destruct (snd k); [apply Z0; lia|].
  cbv zeta. eapply sat_bind; [apply sat_call; lia|]. intros e c'' Hc' _. cbv beta.
  destruct (Rlt_dec _ _); [|apply Z0; lia]. eapply sat_bind; [apply sat_findu; lia|]. intros u c3 Hc3 _. apply Z0. lia.
Qed.

Definition end_ok (x : R * Z * R * R) : Prop :=
  let '(q, e, terms, ints) := x in (e = 0%Z \/ e = 2%Z) /\ terms <= INR lim + 3 / 2 * ints /\ 0 <= ints.

Lemma sat_finish s count : (count <= lim)%nat -> stage_ok s -> sat count end_ok (finish integral acc s count).
Proof.
  intros H S. pose proof (pos_INR lim). destruct s as [q|intl ersm intv xnt xlim sigsq terms ints]; cbn [finish].
  - cbn. split; [lia|]. repeat split; [now left|lra|lra].
  - destruct (Rlt_dec xlim xnt) as [B|B]; [cbn; split; [now left|lia]|].
    cbv zeta. destruct (integral _ _ 0 true sigsq) as [di de]. destruct S as [S1 S2].
    cbn. split; [lia|]. split; [destruct (Req_EM_T _ _); [now right|now left]|].
    pose proof (nearest_le xnt). split; lra.
Qed.

Lemma sat_qf vars : scan vars (sigma * sigma) <> None ->
  sat 0 end_ok (qf trunc_err err_bound cfe_val integral lim c acc sigma vars) \/
  qf trunc_err err_bound cfe_val integral lim c acc sigma vars = Fault 3 0.
Proof.
  intros H. unfold qf. cbv zeta. destruct (scan vars (sigma * sigma)) as [[[[sd2 mean] lmax] lmin]|]; [|congruence].
  destruct (Req_EM_T sd2 0).
  - left. pose proof (pos_INR lim). cbn. split; [lia|]. repeat split; [now left|lra|lra].
  - match goal with |- context [if ?b then Fault 3 0 else _] => destruct b end; [now right|]. left.
    eapply sat_bind; [apply sat_findu; lia|]. intros utx c1' Hc1 _. cbv beta.
    eapply sat_bind; [apply sat_factor; lia|]. intros w c2' Hc2 _. cbv beta.
    eapply sat_bind; [apply sat_range; [lia|lia|lra|lra]|]. intros s c3 Hc3 Hs. cbv beta.
    eapply sat_weaken; [|intros ? X; exact X|apply sat_finish; [lia|exact Hs]]. lia.
Qed.
End Control.

(** ** scan *)
Definition scan_step (st : option (R * R * R * R)) (v : R * Z * R) : option (R * R * R * R) :=
    match st with
    | None => None
    | Some (sd, mean, lmax, lmin) =>
        let '(lj, nj, ncj) := v in
        if (nj <? 0)%Z then None else if Rlt_dec ncj 0 then None
        else Some (sd + lj * lj * (2 * IZR nj + 4 * ncj), mean + lj * (IZR nj + ncj),
                   if Rlt_dec lmax lj then lj else lmax,
                   if Rlt_dec lmax lj then lmin else if Rlt_dec lj lmin then lj else lmin)
    end.
Lemma scan_eq vars s : scan vars s = fold_left scan_step vars (Some (s, 0, 0, 0)).
Proof. reflexivity. Qed.
Lemma scan_none vars : fold_left scan_step vars None = None.
Proof. induction vars; [reflexivity|exact IHvars]. Qed.

Lemma scan_spec vars : forall st, invalid vars <-> fold_left scan_step vars (Some st) = None.
Proof.
  induction vars as [|[[l n] nc] vs IH]; intros [[[sd mean] lmax] lmin].
  - split; [intros (l & n & nc & [] & _)|discriminate].
  - cbn [fold_left scan_step]. destruct (n <? 0)%Z eqn:E1; [apply Z.ltb_lt in E1|apply Z.ltb_ge in E1].
    + rewrite scan_none. split; [reflexivity|]. intros _. exists l, n, nc. split; [now left|now left].
    + destruct (Rlt_dec nc 0) as [E2|E2].
      * rewrite scan_none. split; [reflexivity|]. intros _. exists l, n, nc. split; [now left|now right].
      * rewrite <- IH. split.
        -- intros (l' & n' & nc' & [[= <- <- <-]|J] & B); [destruct B; [lia|contradiction]|]. exists l', n', nc'. split; assumption.
        -- intros (l' & n' & nc' & J & B). exists l', n', nc'. split; [now right|assumption].
Qed.

(** If smallest and largest weight are zero, the variance is that of the normal part. *)
Lemma scan_zero vars : forall sd mean lmax lmin sd' mean' lmax' lmin', lmin <= 0 -> 0 <= lmax ->
  fold_left scan_step vars (Some (sd, mean, lmax, lmin)) = Some (sd', mean', lmax', lmin') ->
  lmax <= lmax' /\ lmin' <= lmin /\ (lmax' = 0 -> lmin' = 0 -> sd' = sd /\ mean' = mean).
Proof.
  induction vars as [|[[l n] nc] vs IH]; intros sd mean lmax lmin sd' mean' lmax' lmin' A B E.
  - injection E as <- <- <- <-. repeat split; lra.
  - cbn [fold_left scan_step] in E. destruct (n <? 0)%Z; [rewrite scan_none in E; discriminate|].
    destruct (Rlt_dec nc 0); [rewrite scan_none in E; discriminate|].
    destruct (Rlt_dec lmax l); [|destruct (Rlt_dec l lmin)]; apply IH in E; try lra;
      destruct E as [E1 [E2 E3]]; (split; [lra|split; [lra|]]); intros Z1 Z2; try lra.
    destruct (E3 Z1 Z2) as [-> ->]. assert (l = 0) by lra. subst. split; lra.
Qed.

(** ** sums *)
Lemma sum_perm (f : nat -> R) (l l' : list nat) : Permutation l l' -> sum_list (map f l) = sum_list (map f l').
Proof. induction 1; cbn in *; unfold sum_list in *; cbn; lra. Qed.
Lemma sum_app a b : sum_list (a ++ b) = sum_list a + sum_list b.
Proof. unfold sum_list. induction a as [|x a IH]; cbn [app fold_right]; [lra|rewrite IH; lra]. Qed.
