(** A way to find dependencies that meets the specification, and small vectors for examples. *)
From Coq Require Import String.
From mathcomp Require Import all_ssreflect all_algebra.
From Verif Require Import NestModel NestSpec NestProofs NestProofs2 NestProofs3 NestProofs4.
Set Implicit Arguments.
Unset Strict Implicit.
Unset Printing Implicit Defensive.
Import GRing.Theory Num.Theory.
Local Open Scope ring_scope.

Section Greedy.
Variables (F : realFieldType) (n : nat).
Implicit Types (X : seq 'cV[F]_n).

(** Example only: columns that are no combination of what was kept so far, and the others. *)
Fixpoint pick (X2 X1 : seq 'cV[F]_n) (js : seq nat) : seq nat * seq nat :=
  match js with
  | [::] => ([::], [::])
  | j :: js =>
      if nth 0 X2 j \in <<X1>>%VS then let '(k, d) := pick X2 X1 js in (k, j :: d)
      else let '(k, d) := pick X2 (nth 0 X2 j :: X1) js in (j :: k, d)
  end.
Definition greedy (X1 X2 : seq 'cV[F]_n) : seq nat * nat :=
  let '(k, d) := pick X2 X1 (iota 0 (size X2)) in (k ++ d, size k).

Lemma pick_ok X2 X1 js : let '(k, d) := pick X2 X1 js in
  [/\ perm_eq (k ++ d) js, free X1 -> free (X1 ++ at_positions X2 k) &
      <<X1 ++ at_positions X2 k>>%VS = <<X1 ++ at_positions X2 js>>%VS].
Proof.
elim: js X1 => [|j js IH] X1 //=; first by rewrite cats0.
case: ifP => Hj.
  have := IH X1; case: (pick X2 X1 js) => k d [P Fr S]; split=> //.
    by rewrite perm_catC /= perm_cons perm_catC.
  rewrite S /= !span_cat span_cons; apply/eqP; rewrite eqEsubv; apply/andP; split.
    by apply: addvS => //; exact: addvSr.
  rewrite subv_add addvSl /= subv_add -memvE (subvP (addvSl _ _) _ Hj) /=; exact: addvSr.
have := IH (nth 0 X2 j :: X1); case: (pick X2 _ js) => k d [P Fr S].
have C Y : perm_eq (X1 ++ nth 0 X2 j :: Y) ((nth 0 X2 j :: X1) ++ Y).
  by rewrite -[_ :: Y]cat1s catA perm_cat2r perm_catC.
split; first by rewrite /= perm_cons.
  move=> F1; rewrite /= (perm_free (C _)); apply: Fr; by rewrite free_cons Hj.
by rewrite /= (span_perm (C _)) S (span_perm (C _)).
Qed.

Lemma at_all X : at_positions X (iota 0 (size X)) = X.
Proof.
apply: (@eq_from_nth _ 0); rewrite size_map size_iota // => i H.
by rewrite (nth_map 0%N) ?size_iota // nth_iota.
Qed.

Lemma greedy_ok : dep_ok greedy.
Proof.
move=> X1 X2; rewrite /greedy; have := pick_ok X2 X1 (iota 0 (size X2)).
case: (pick X2 X1 _) => k d [P Fr S] /=; split=> //; split.
  by rewrite -[X in (_ <= X)%N](size_iota 0) -(perm_size P) size_cat leq_addr.
have W := without_perm (size k) P; rewrite take_size_cat // in W.
have C : perm_eq (X1 ++ without X2 (drop (size k) (k ++ d))) (X1 ++ at_positions X2 k) by rewrite perm_cat2l.
by move=> F1; rewrite /separates (perm_free C) (span_perm C) S at_all; split=> //; exact: Fr.
Qed.

Lemma span1 (x a : 'cV[F]_n) : x \in <<[:: a]>>%VS -> exists k, x = k *: a.
Proof. by rewrite span_seq1 => /vlineP. Qed.
Lemma span2 (x a b : 'cV[F]_n) : x \in <<[:: a; b]>>%VS -> exists k l, x = k *: a + l *: b.
Proof. by rewrite span_cons => /memv_addP[u /vlineP[k ->] [v /span1[l ->] ->]]; exists k, l. Qed.
End Greedy.

Definition v3 (a b c : rat) : 'cV[rat]_3 := \col_i nth 0 [:: a; b; c] i.
Lemma v3P a b c a' b' c' : v3 a b c = v3 a' b' c' -> [/\ a = a', b = b' & c = c'].
Proof.
move/colP => H; split.
- by have := H 0; rewrite !mxE.
- by have := H 1; rewrite !mxE.
- by have := H (inord 2); rewrite !mxE !inordK.
Qed.
Lemma v3Z k a b c : k *: v3 a b c = v3 (k * a) (k * b) (k * c).
Proof. by apply/colP => -[[|[|[|i]]] Hi]; rewrite !mxE. Qed.
Lemma v3D a b c a' b' c' : v3 a b c + v3 a' b' c' = v3 (a + a') (b + b') (c + c').
Proof. by apply/colP => -[[|[|[|i]]] Hi]; rewrite !mxE. Qed.
