(** C57: bounds for the degrees of freedom. *)

From Coq Require Import Reals Lra List Sorted.
From mathcomp Require Import all_ssreflect all_algebra.
From Verif Require Import PenModel PenSpec PenProofs6 EdfProofs.
From Verif Require Import RealField RealMat RealEigen EdfProofs2 EdfSpec.
Import GRing.Theory.
Set Implicit Arguments.
Unset Strict Implicit.
Unset Printing Implicit Defensive.
Local Open Scope ring_scope.

Lemma Rring : ring_theory (IZR 0) (IZR 1) Rplus Rmult Rminus Ropp (@eq R).
Proof. exact RTheory. Qed.

Lemma lsum_big T (f : T -> R) l : lsum (IZR 0) Rplus f l = \sum_(x <- l) f x.
Proof. elim: l => [|x l ih]; [by rewrite big_nil|by rewrite big_cons /= ih]. Qed.

Lemma kof_nat k : kof (IZR 0) (IZR 1) Rplus k = k%:R.
Proof. elim: k => [|k ih] //=. by rewrite ih -[in RHS]add1n natrD mulr1n. Qed.

Lemma forall2_impl (P Q : nat -> R -> Prop) l l' : (forall a b, P a b -> Q a b) -> Forall2 P l l' -> Forall2 Q l l'.
Proof. by move=> h; elim=> [|a b k k' hab _ ih]; constructor=> //; exact: h. Qed.

Section Bounds.
Variable n : nat.
Implicit Types (p : lterm R) (l : list (lterm R)) (Li H : 'M[R]_n).

Lemma squares_trace Li p : emb n p = root n p *m (root n p)^T -> squares Li p = \tr (Li^T *m Li *m emb n p).
Proof.
move=> ->; rewrite -mulmxA mxtrace_mulC mulmxA -[X in \tr X]mulmxA -trmx_mul /squares /mxtrace; apply: eq_bigr => i _.
by rewrite mxE; apply: eq_bigr => j _; rewrite [_^T _ _]mxE.
Qed.

Lemma share_trace Li l : (forall p, In p l -> emb n p = root n p *m (root n p)^T) ->
  lsum (IZR 0) Rplus (fun p => Rmult (t_lam p) (squares Li p)) l = \tr (Li^T *m Li *m weighted n l).
Proof.
rewrite lsum_big /weighted; elim: l => [|p l ih] h; first by rewrite !big_nil mulmx0 mxtrace0.
rewrite !big_cons mulmxDr mxtraceD ih => [|q hq]; last by apply: h; right.
by rewrite -scalemxAr mxtraceZ squares_trace //; apply: h; left.
Qed.

Lemma weighted_psd l : (forall p, In p l -> emb n p = root n p *m (root n p)^T /\ Rle 0 (t_lam p)) -> psd (weighted n l).
Proof.
elim: l => [|p l ih] h.
  rewrite /weighted big_nil; split; first exact: trmx0.
  by move=> x; rewrite /quad mulmx0 mul0mx mxE; exact: Rle_refl.
have [e l0] := h p (or_introl erefl); have [i1 i2] := ih (fun q hq => h q (or_intror hq)).
rewrite /weighted big_cons; split.
  by rewrite linearD linearZ /= i1 e trmx_mul trmxK.
move=> x; rewrite quadD quadZ e quad_gram; apply: Rplus_le_le_0_compat; last exact: i2.
apply: Rmult_le_pos => //; apply: sum_ge0 => i; exact: sq_ge0.
Qed.

Lemma weighted_split (f : lterm R -> bool) l : weighted n l = weighted n (List.filter f l) + weighted n (List.filter (fun p => ~~ f p) l).
Proof.
rewrite /weighted; elim: l => [|p l ih]; first by rewrite /= big_nil addr0.
rewrite big_cons ih /=; case: (f p) => /=; rewrite big_cons; first by rewrite addrA.
by rewrite addrCA.
Qed.

Lemma filter_ok l f : (forall p, In p l -> emb n p = root n p *m (root n p)^T /\ Rle 0 (t_lam p)) ->
  forall p, In p (List.filter f l) -> emb n p = root n p *m (root n p)^T /\ Rle 0 (t_lam p).
Proof. by move=> h p /filter_In [i _]; exact: h. Qed.

(** The total degrees of freedom and those of every term (identified by its first coefficient), for the inverse [Li]
    of a Cholesky factor of the penalised negative Hessian. *)
Theorem C57_edf_bounds : forall (ps ms : list (lterm R)) Li H total pp Bs tedf,
  good ps -> laid_out ps -> (forall p, In p ps -> Nat.le (pen_end p) n) ->
  combine_shared_penalties Rplus ps = Some ms ->
  calculate_edf (IZR 0) Rplus Rmult Rminus (squares Li) n%:R ms = (total, pp, Bs) ->
  calculate_term_edf (IZR 0) (IZR 1) Rplus Rminus ms pp = Some tedf ->
  psd H -> (forall p, In p ps -> emb n p = root n p *m (root n p)^T /\ Rle 0 (t_lam p)) ->
  Li *m (H + weighted n ps) *m Li^T = 1%:M ->
  let V := Li^T *m Li in
  (total = \tr (V *m H) /\ Rle 0 total /\ Rle total (\rank H)%:R /\ Rle (n - \rank (weighted n ps))%:R total /\
   total = \sum_(e <- tedf) e + (n%:R - (n_covered n ps)%:R)) /\
  exists starts, StronglySorted Nat.lt starts /\ (forall s, In s starts <-> exists p, In p ps /\ t_start p = s) /\
    Forall2 (fun s e => forall p, In p ps -> t_start p = s ->
      let S := weighted n (List.filter (fun q => Nat.eqb (t_start q) s) ps) in
      let w := ((t_dim p * t_rep p)%coq_nat)%:R in
      e = w - \tr (V *m S) /\ Rle (w - (\rank S)%:R) e /\ Rle e w) starts tedf.
Proof.
move=> ps ms Li H total pp Bs tedf gd lo pe cm ce ct pH ok inv V.
have inv' : V *m (H + weighted n ps) = 1%:M by rewrite -mulmxA; apply: mulmx1C.
have pS := weighted_psd ok.
have sA : (H + weighted n ps)^T = H + weighted n ps by rewrite linearD /= pH.1 pS.1.
have roots l : (forall p, In p l -> emb n p = root n p *m (root n p)^T /\ Rle 0 (t_lam p)) -> forall p, In p l -> emb n p = root n p *m (root n p)^T.
  by move=> h p hp; have [] := h p hp.
have [t1 t2] := edf_adds_up _ _ _ _ _ _ _ Rring _ _ _ _ _ _ _ _ _ gd lo pe cm ce ct.
move: t1; rewrite (share_trace Li (roots _ ok)) -/V => t1.
have tn : \tr (V *m H) + \tr (V *m weighted n ps) = n%:R by rewrite -mxtraceD -mulmxDr inv' mxtrace1.
have tt : total = \tr (V *m H) by rewrite t1 -tn; move: (\tr _) (\tr _) => a b; eqR; ring.
have bH : Rle 0 (\tr (V *m H)) /\ Rle (\tr (V *m H)) (\rank H)%:R.
  by apply: (trace_bound sA inv' pH) => x; rewrite quadD; apply: le_addl; exact: pS.2.
have bS : Rle 0 (\tr (V *m weighted n ps)) /\ Rle (\tr (V *m weighted n ps)) (\rank (weighted n ps))%:R.
  by apply: (trace_bound sA inv' pS) => x; rewrite quadD addrC; apply: le_addl; exact: pH.2.
split.
  split=> //; rewrite tt; split; first exact: bH.1. split; first exact: bH.2. split.
    rewrite natrB ?rank_leq_row // -tn; move: bS; move: (\tr _) (\tr _) (_%:R) => a b c [_]; toR; Lra.
  by rewrite -tt t2 !lsum_big !kof_nat.
have [starts [s1 [s2 s3]]] := term_edfs _ _ _ _ _ _ _ Rring _ _ _ _ _ _ _ _ gd lo cm ce ct.
exists starts; split=> //; split=> //.
apply: forall2_impl s3 => s e h p hp es S w.
have okS := filter_ok (f := fun q => Nat.eqb (t_start q) s) ok.
have eE : e = w - \tr (V *m S) by rewrite (h p hp es) kof_nat (share_trace Li (roots _ okS)).
split=> //.
have [b1 b2] : Rle 0 (\tr (V *m S)) /\ Rle (\tr (V *m S)) (\rank S)%:R.
  apply: (trace_bound sA inv' (weighted_psd okS)) => x.
  rewrite (weighted_split (fun q => Nat.eqb (t_start q) s) ps) addrCA quadD; apply: le_addl; rewrite quadD.
  apply: Rplus_le_le_0_compat; first exact: pH.2. exact: (weighted_psd (filter_ok ok)).2.
rewrite eE; move: b1 b2; move: (\tr _) (\rank S)%:R => a c; rewrite -/w; move: (w : R) => b; toR => b1 b2; split; Lra.
Qed.
End Bounds.
Print Assumptions C57_edf_bounds.

(** An intercept and a ridge penalty on a second coefficient: 1 + 1/4 degrees of freedom. *)
Definition at11 : nat -> nat -> R := fun i j => if Nat.eqb i 1 && Nat.eqb j 1 then IZR 1 else IZR 0.
Definition ridge : lterm R :=
  mkTerm (fun _ _ => IZR 1) 1 at11 at11 1 (IZR 3) 1 false IDENTITY 1 [:: 0%N] None [:: 0%N] None None.
Definition chol_inv : 'M[R]_2 := \matrix_(i, j) (if i != j then 0 else if val i == 0%N then 1 else 2%:R^-1).

Lemma two_ord (F : 'I_2 -> R) : \sum_i F i = F 0 + F 1.
Proof. rewrite !big_ord_recl big_ord0 addr0; congr (_ + F _); exact: val_inj. Qed.

Example C57_bounds_case : let ps := [:: ridge] in
  good ps /\ laid_out ps /\ combine_shared_penalties Rplus ps = Some ps /\ psd (1%:M : 'M[R]_2) /\
  (forall p, In p ps -> emb 2 p = root 2 p *m (root 2 p)^T /\ Rle 0 (t_lam p)) /\
  chol_inv *m (1%:M + weighted 2 ps) *m chol_inv^T = 1%:M /\ \tr (chol_inv^T *m chol_inv *m 1%:M) = 1 + 4%:R^-1.
Proof.
split.
  split; first by move=> p q [<-|[]] [<-|[]].
  split; first by move=> k; rewrite /id_count; cbn [List.map count_occ ridge t_id]; case: optnat_eq_dec.
  split; first by move=> p [<-|[]]; do 2 (split; first by [] || by exists 0%N); exists 0%N.
  by split; [move=> p [<-|[]]|constructor].
split.
  by move=> p q [<-|[]] [<-|[]]; split=> // /Nat.lt_irrefl.
split; first by []. split.
  by split; [exact: trmx1|move=> x; rewrite quad1; exact: dotp_ge0].
have e11 i j : at11 (nat_of_ord (i : 'I_2)) (nat_of_ord (j : 'I_2)) = ((i == 1) && (j == 1))%:R.
  by case: i => [[|[|i]] //= hi]; case: j => [[|[|j]] //= hj].
have ew : emb 2 ridge = delta_mx 1 1 by apply/matrixP => i j; rewrite !mxE; cbn [t_Semb ridge]; rewrite e11.
split.
  move=> p [<-|[]]; split; last by cbn [t_lam ridge]; toR; Lra.
  have -> : root 2 ridge = delta_mx 1 1 by apply/matrixP => i j; rewrite !mxE; cbn [t_Demb ridge]; rewrite e11.
  by rewrite trmx_delta mul_delta_mx.
have n2 : (2%:R : R) != 0 by rewrite mulr2n; apply/eqP; toR => h; Lra.
have three : IZR 3 = 3%:R :> R by rewrite !mulrS mulr0n addr0; toR; Lra.
split.
  rewrite /weighted big_seq1 ew; apply/matrixP => i j; rewrite mxE two_ord !mxE !two_ord !mxE.
  case: i => [[|[|i]] //= hi]; case: j => [[|[|j]] //= hj]; rewrite /= ?three ?(mulr0, mul0r, addr0, add0r, mulr1, mul1r) //.
  rewrite mulr1n -[1 + 3%:R](natrD _ 1 3) (_ : (1 + 3 = 2 * 2)%N) // natrM mulrA mulVf // mul1r mulfV //.
rewrite /mxtrace two_ord !mxE !two_ord !mxE !two_ord !mxE /= ?(mulr0, mul0r, addr0, add0r, mulr1, mul1r).
by congr (_ + _); rewrite -invfM -natrM.
Qed.
