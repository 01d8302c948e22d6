(** The invariant of the similarity transform and one pass. *)

From Coq Require Import Reals Lra.
From mathcomp Require Import all_ssreflect all_algebra.
From Verif Require Import RealField RealMat RealEigen ReparModel ReparSpec ReparProofs ReparProofs2.
Import GRing.Theory.
Set Implicit Arguments.
Unset Strict Implicit.
Unset Printing Implicit Defensive.
Local Open Scope ring_scope.

Section Inv.
Variables (eigh : nat -> mat -> (nat -> R) * mat) (dim npen r0 : nat) (Sb : nat -> mat) (lam : nat -> R).
Hypotheses (ex : exact_eigh eigh) (lam0 : forall k, (k < npen)%N -> Rlt 0 (lam k)) (r0d : (r0 <= dim)%N)
  (pS : forall k, (k < npen)%N -> psd (mx r0 r0 (Sb k))).
Let tot : 'M[R]_r0 := \sum_(k <- iota 0 npen) lam k *: mx r0 r0 (Sb k).
Hypothesis tot_pd : pd tot.

Definition cur_S (s : state) : mat :=
  if S_rep s is Some A then A else fun i j => \sum_(k <- iota 0 npen) lam k * Sb k i j.
Let E s := sel r0 (Q s) (K s).

Record inv (s : state) (W : 'M[R]_r0) : Prop := Inv {
  iK : (K s + Q s = r0)%N;
  iu : uniq (rem_idx s);
  isub : forall k, k \in rem_idx s -> (k < npen)%N;
  ine : rem_idx s <> [::];
  iW : W^T *m W = 1%:M;
  iS : mx r0 r0 (cur_S s) = W^T *m tot *m W;
  iN : S_rep s = None -> K s = 0%N;
  iJ : forall k, (k < npen)%N -> mx r0 r0 (S_Jrep s k) = W^T *m mx r0 r0 (Sb k) *m W;
  iB : forall k, k \in rem_idx s -> mx (Q s) (Q s) (SJbar s k) = (E s)^T *m mx r0 r0 (S_Jrep s k) *m E s;
  iZ : forall k, (k < npen)%N -> k \notin rem_idx s -> mx r0 r0 (S_Jrep s k) *m E s = 0;
  iL : (E s)^T *m mx r0 r0 (cur_S s) *m E s = \sum_(k <- rem_idx s) lam k *: mx (Q s) (Q s) (SJbar s k);
  iR : match Q_rep s with
       | None => S_rep s = None /\ W = 1%:M
       | Some (rows, Q0) => S_rep s <> None /\ rows = dim /\ mx dim dim Q0 = pad dim W
       end }.

Section Pass.
Variables (s : state) (W : 'M[R]_r0).
Hypothesis I : inv s W.
Let am := am_norm lam s.
Let D := (eigh (Q s) (scale (lam am) (SJbar s am))).1.
Let U2 := (eigh (Q s) (scale (lam am) (SJbar s am))).2.
Let r := positive 0 (Q s) D.
Let n := (Q s - r)%N.
Let U := mx (Q s) (Q s) U2.
Let P := sel r0 (K s) 0.
Let F := sel (Q s) n r.
Let G := sel (Q s) r 0.

Lemma am_in : am \in rem_idx s. Proof. exact: (am_norm_spec lam (ine I)).1. Qed.
Lemma am_npen : (am < npen)%N. Proof. exact (isub I am_in). Qed.
Lemma jrep_psd k : (k < npen)%N -> psd (mx r0 r0 (S_Jrep s k)).
Proof. by move=> kn; rewrite (iJ I kn); apply: psd_congr; exact: pS. Qed.
Lemma bar_psd k : k \in rem_idx s -> psd (mx (Q s) (Q s) (SJbar s k)).
Proof. by move=> kr; rewrite (iB I kr); apply: psd_congr; apply: jrep_psd; exact: (isub I kr). Qed.
Lemma in_psd : psd (mx (Q s) (Q s) (scale (lam am) (SJbar s am))).
Proof. by rewrite mx_scale; apply: psd_scale; [exact: (lam0 am_npen)|exact: (bar_psd am_in)]. Qed.

Lemma r_le : (r <= Q s)%N. Proof. exact: (positive_spec ex in_psd).1. Qed.
Lemma D_pos i : (i < r)%N -> Rlt 0 (D i).
Proof. by move=> h; have := (positive_spec ex in_psd).2 i (leq_trans h r_le); rewrite -/D -/r h. Qed.
Lemma D_zero i : (r <= i)%N -> (i < Q s)%N -> D i = 0.
Proof. by move=> h h'; have := (positive_spec ex in_psd).2 i h'; rewrite -/D -/r ltnNge h. Qed.
Lemma rn : (r + n = Q s)%N. Proof. exact: subnKC r_le. Qed.
Lemma U_orth : U^T *m U = 1%:M. Proof. exact: (eig_orth ex in_psd). Qed.
Lemma U_diag : U^T *m (lam am *: mx (Q s) (Q s) (SJbar s am)) *m U = mx (Q s) (Q s) (diag D).
Proof. by rewrite -mx_scale; exact: (eig_diag ex in_psd). Qed.

(** The selections. *)
Lemma hK : (0 + K s <= r0)%N. Proof. by rewrite -(iK I) leq_addr. Qed.
Lemma hQ : (K s + Q s <= r0)%N. Proof. by rewrite (iK I). Qed.
Lemma hF : (r + n <= Q s)%N. Proof. by rewrite rn. Qed.
Lemma hG : (0 + r <= Q s)%N. Proof. exact: r_le. Qed.
Lemma aPE : P *m P^T + E s *m (E s)^T = 1%:M. Proof. exact: sel_split (iK I). Qed.
Lemma aP : P^T *m P = 1%:M. Proof. exact: sel_orth hK. Qed.
Lemma aE : (E s)^T *m E s = 1%:M. Proof. exact: sel_orth hQ. Qed.
Lemma ape : P^T *m E s = 0. Proof. by apply: sel_perp hQ; rewrite add0n. Qed.
Lemma aep : (E s)^T *m P = 0. Proof. by apply: sel_perp' hQ; rewrite add0n. Qed.
Lemma aGF : G *m G^T + F *m F^T = 1%:M. Proof. exact: sel_split rn. Qed.
Lemma E2 : sel r0 n (K s + r) = E s *m F.
Proof. by rewrite /E /F sel_sel ?hQ ?hF. Qed.

(** The matrices of the pass. *)
Let Tg : mat := match S_rep s with None => U2 | Some _ => block (K s) (K s) eye zeros zeros U2 end.
Let Ur0 : mat := fun i j => if (j < r)%N then U2 i j else 0.
Let Ta : mat := match S_rep s with None => Ur0 | Some _ => block (K s) (K s) eye zeros zeros Ur0 end.
Let T := turn P (E s) U.

Lemma block00 p q (A B C M : mat) : mx p q M = mx p q (block 0 0 A B C M).
Proof. by apply/matrixP => i j; rewrite !mxE /block /= !subn0. Qed.

Lemma turn_block (V : mat) :
  mx r0 r0 (match S_rep s with None => V | Some _ => block (K s) (K s) eye zeros zeros V end) = turn P (E s) (mx (Q s) (Q s) V).
Proof.
have -> : mx r0 r0 (match S_rep s with None => V | Some _ => block (K s) (K s) eye zeros zeros V end) = mx r0 r0 (block (K s) (K s) eye zeros zeros V).
  by case e : (S_rep s) => //; rewrite (iN I e); exact: block00.
by rewrite (mx_block _ _ _ _ (iK I)) !mx_zeros mx_eye !mulmx0 !mul0mx !addr0 mulmx1.
Qed.
Lemma TgE : mx r0 r0 Tg = T. Proof. exact: turn_block. Qed.
Lemma Ur0E : mx (Q s) (Q s) Ur0 = U *m (G *m G^T).
Proof.
rewrite -[LHS]mulmx1 -aGF mulmxDr !mulmxA /G /F /U !mx_selR ?hF ?hG //.
rewrite [X in _ + X *m _](_ : _ = 0) ?mul0mx ?addr0; last first.
  by apply/matrixP => i j; rewrite !mxE /Ur0 ltnNge leq_addr.
by congr (_ *m _); apply/matrixP => i j; rewrite !mxE /Ur0 add0n ltn_ord.
Qed.
Lemma TaE : mx r0 r0 Ta = turn P (E s) (U *m (G *m G^T)).
Proof. by rewrite /Ta turn_block Ur0E. Qed.

Let M := T^T *m mx r0 r0 (S_Jrep s am) *m T.
Lemma M_zero : M *m (E s *m F) = 0.
Proof.
apply: psd_kernel_mx; first by apply: psd_congr; apply: jrep_psd am_npen.
have a0 : lam am != 0 by apply/eqP => z; have := lam0 am_npen; rewrite z => /Rlt_irrefl.
apply: (scalerI a0); rewrite scaler0.
have -> : (E s *m F)^T *m M *m (E s *m F) = (T *m (E s) *m F)^T *m mx r0 r0 (S_Jrep s am) *m (T *m (E s) *m F).
  by rewrite /M -!mulmxA !trmx_mul !mulmxA.
rewrite /T turn_E ?aE ?ape // -/T.
have -> : (E s *m U *m F)^T *m mx r0 r0 (S_Jrep s am) *m (E s *m U *m F) = F^T *m (U^T *m ((E s)^T *m mx r0 r0 (S_Jrep s am) *m E s) *m U) *m F.
  by rewrite !trmx_mul !mulmxA.
rewrite -(iB I am_in) scalemxAl scalemxAr scalemxAl scalemxAr U_diag /F selT ?hF // mx_selR ?hF //.
apply/matrixP => i j; rewrite !mxE /diag; case: eqP => // e.
by apply: D_zero; rewrite ?leq_addr // -rn ltn_add2l.
Qed.

Lemma jrep_sym k : (k < npen)%N -> (mx r0 r0 (S_Jrep s k))^T = mx r0 r0 (S_Jrep s k).
Proof. by move=> kn; have [] := jrep_psd kn. Qed.

Lemma new_J k : (k < npen)%N ->
  mx r0 r0 (if k \in rem_idx s then
     (if k == am then mul r0 (tr Ta) (mul r0 (S_Jrep s k) Ta) else mul r0 (tr Tg) (mul r0 (S_Jrep s k) Tg))
     else S_Jrep s k) = T^T *m mx r0 r0 (S_Jrep s k) *m T.
Proof.
move=> kn; case: ifP => kr; last first.
  by rewrite /T turn_keep ?aPE ?jrep_sym //; apply: (iZ I kn); rewrite kr.
case: eqP => [e|_]; rewrite !mx_mul mx_tr mulmxA ?TgE //.
rewrite TaE e; apply: turn_cut; [exact: aE|exact: ape|exact: aGF|exact: jrep_sym am_npen|exact: M_zero].
Qed.

Lemma new_S (A0 : mat) (rest : seq nat) : perm_eq (rem_idx s) (am :: rest) ->
  (S_rep s = None \/ A0 = cur_S s) ->
  let Sjk : mat := fun i j => \sum_(k <- rest) lam k * SJbar s k i j in
  let Un := cols_from r U2 in
  let tSt A B := mul (Q s) (tr A) (mul (Q s) Sjk B) in
  let C := block r r (add (diag D) (tSt U2 U2)) (tSt U2 Un) (tSt Un U2) (tSt Un Un) in
  let BU := mul (Q s) (cols_from (K s) A0) U2 in
  mx r0 r0 (match S_rep s with None => C | Some A => block (K s) (K s) A BU (tr BU) C end) = T^T *m mx r0 r0 (cur_S s) *m T.
Proof.
move=> pr eA Sjk Un tSt C BU.
have eC : mx (Q s) (Q s) C = U^T *m ((E s)^T *m mx r0 r0 (cur_S s) *m E s) *m U.
  rewrite (iL I) (perm_big _ pr) big_cons mulmxDr mulmxDl U_diag -mx_sum.
  have -> : U^T *m mx (Q s) (Q s) (fun i j => \sum_(k <- rest) lam k * SJbar s k i j) *m U = mx (Q s) (Q s) (tSt U2 U2).
    by rewrite /tSt !mx_mul mx_tr mulmxA.
  rewrite -mx_add; apply/mx_ext => i j iQ jQ; rewrite /C /block /add.
  have z k : (k < Q s)%N -> ~~ (k < r)%N -> D k = 0 by move=> kQ; rewrite -leqNgt => h; exact: D_zero.
  have [ir|ir] := ltnP i r; have [jr|jr] := ltnP j r => //.
  - rewrite /diag; have -> : (i == j) = false by apply/eqP => e; move: jr; rewrite -e leqNgt ir.
    by rewrite add0r /tSt /Un /mul /tr /cols_from subnKC.
  - rewrite /diag; have -> : (i == j) = false by apply/eqP => e; move: ir; rewrite e leqNgt jr.
    by rewrite add0r /tSt /Un /mul /tr /cols_from subnKC.
  rewrite /diag z // -?leqNgt // if_same add0r /tSt /Un /mul /tr /cols_from !subnKC //.
have eB : mx (K s) (Q s) BU = P^T *m mx r0 r0 (cur_S s) *m E s *m U.
  case: eA => [e|e0].
    have K0 := iN I e; apply/matrixP => -[i hi]; exfalso; move: hi; by rewrite K0.
  rewrite /BU e0 mx_mul /P selT ?hK // mx_selR ?hQ //.
have cs : (mx r0 r0 (cur_S s))^T = mx r0 r0 (cur_S s).
  by rewrite (iS I) !trmx_mul trmxK tot_pd.1 mulmxA.
rewrite /T turn_total //.
have -> : mx r0 r0 (match S_rep s with None => C | Some A => block (K s) (K s) A BU (tr BU) C end) =
          mx r0 r0 (block (K s) (K s) (cur_S s) BU (tr BU) C).
  by rewrite /cur_S; case e : (S_rep s) => //; rewrite (iN I e); exact: block00.
rewrite (mx_block _ _ _ _ (iK I)) mx_tr eB eC.
have -> : mx (K s) (K s) (cur_S s) = P^T *m mx r0 r0 (cur_S s) *m P.
  by rewrite /P selT ?hK // mx_selR ?hK.
by [].
Qed.

Lemma new_bar k : k \in rem_idx s ->
  mx n n (mul (Q s) (tr (cols_from r U2)) (mul (Q s) (SJbar s k) (cols_from r U2)))
  = F^T *m (U^T *m mx (Q s) (Q s) (SJbar s k) *m U) *m F.
Proof.
move=> kr; rewrite !mx_mul mx_tr.
have -> : mx (Q s) n (cols_from r U2) = U *m F by rewrite /U /F mx_selR ?hF.
by rewrite trmx_mul !mulmxA.
Qed.

Lemma bar_am_zero : lam am *: (F^T *m (U^T *m mx (Q s) (Q s) (SJbar s am) *m U) *m F) = 0.
Proof.
rewrite scalemxAl scalemxAr scalemxAl scalemxAr U_diag /F selT ?hF // mx_selR ?hF //.
apply/matrixP => i j; rewrite !mxE /diag; case: eqP => // e.
by apply: D_zero; rewrite ?leq_addr // -rn ltn_add2l.
Qed.

(** If only one penalty is left, it has full rank on what is left. *)
Lemma last_full : rem_idx s = [:: am] -> r = Q s.
Proof.
move=> e; apply/eqP; rewrite eqn_leq r_le leqNgt; apply/negP => lt.
have [x x0 qx] : exists2 x : 'cV[R]_(Q s), x != 0 & quad ((E s)^T *m mx r0 r0 (cur_S s) *m E s) x = 0.
  exists (U *m delta_mx (Ordinal lt) 0).
    apply/eqP => /(congr1 (mulmx U^T)); rewrite mulmxA U_orth mul1mx mulmx0 => /matrixP /(_ (Ordinal lt) 0).
    by rewrite !mxE !eqxx => /eqP; rewrite oner_eq0.
  by rewrite (iL I) e big_seq1 -quad_congr U_diag quad_delta mxE /diag eqxx D_zero //=.
have [_ p] := tot_pd; have := p (W *m (E s *m x)); rewrite -quad_congr -(iS I) -quad_congr qx => h.
have h' : W *m (E s *m x) = 0 by apply/eqP; apply: contraT => /h /Rlt_irrefl.
case/negP: x0; apply/eqP; have z := h'.
have := congr1 (mulmx W^T) z; rewrite mulmxA (iW I) mul1mx mulmx0 => /(congr1 (mulmx (E s)^T)).
by rewrite mulmxA aE mul1mx mulmx0.
Qed.

Lemma pass_inv :
  match pass eigh 0 dim lam r0 s with
  | Break r' => r' = Q s /\ r = Q s
  | Next s' => (exists W', inv s' W') /\ (size (rem_idx s') < size (rem_idx s))%N /\ S_rep s' <> None
  | Error => False
  end.
Proof.
have rw := rn; have un := iu I; have ai := am_in.
have fr : [seq j <- rem_idx s | j != am] = rem am (rem_idx s) by rewrite rem_filter.
have pr : perm_eq (rem_idx s) (am :: [seq j <- rem_idx s | j != am]) by rewrite fr; exact: perm_to_rem.
rewrite /pass -/am [eigh _ _]surjective_pairing -/D -/U2 -/r -/n; case: eqP => [//|ne].
case er : [seq j <- rem_idx s | j != am] => [|a l].
  apply: ne; apply: last_full.
  by move: (perm_size pr) ai; rewrite er; case: (rem_idx s) => // b [|//] _; rewrite inE => /eqP ->.
rewrite -er; split; [|split; [|by []]].
  2: by rewrite /= fr size_rem //; case: (rem_idx s) ai.
exists (W *m T); have oT : T^T *m T = 1%:M.
  by apply: turn_orth; [exact: aPE|exact: aP|exact: aE|exact: ape|exact: aep|exact: U_orth].
have TE : T *m E s = E s *m U by rewrite /T turn_E ?aE ?ape.
have mem k : (k \in [seq j <- rem_idx s | j != am]) = (k != am) && (k \in rem_idx s) by rewrite mem_filter.
have eA : S_rep s = None \/ odflt zeros (S_rep s) = cur_S s by rewrite /cur_S; case: (S_rep s); [right|left].
have hS := new_S pr eA; have hJ := new_J.
split=> /=.
- by rewrite -addnA rw (iK I).
- exact: filter_uniq.
- by move=> k; rewrite mem => /andP[_]; exact: (isub I).
- by rewrite er.
- by rewrite trmx_mul mulmxA -[T^T *m W^T *m W]mulmxA (iW I) mulmx1.
- by rewrite /cur_S /= hS (iS I) trmx_mul !mulmxA.
- by [].
- by move=> k kn; rewrite hJ // (iJ I kn) trmx_mul !mulmxA.
- move=> k; rewrite mem => /andP[ka kr]; rewrite kr ka new_bar // (iB I kr) /E /= E2.
  have := hJ k (isub I kr); rewrite kr (negbTE ka) => ->.
  have -> : (E s *m F)^T *m (T^T *m mx r0 r0 (S_Jrep s k) *m T) *m (E s *m F) = F^T *m (T *m E s)^T *m mx r0 r0 (S_Jrep s k) *m (T *m E s) *m F.
    by rewrite !trmx_mul !mulmxA.
  by rewrite TE trmx_mul !mulmxA.
- move=> k kn; rewrite mem negb_and negbK /E /= E2 => h; rewrite hJ //.
  have [->|ka] := eqVneq k am; first exact: M_zero.
  move: h; rewrite (negbTE ka) /= => h.
  by rewrite /T turn_keep ?aPE ?jrep_sym //; [rewrite mulmxA (iZ I kn h) mul0mx|exact: (iZ I kn h)].
- rewrite /cur_S /= hS /E /= E2.
  have -> : (E s *m F)^T *m (T^T *m mx r0 r0 (cur_S s) *m T) *m (E s *m F) = F^T *m (T *m E s)^T *m mx r0 r0 (cur_S s) *m (T *m E s) *m F.
    by rewrite !trmx_mul !mulmxA.
  rewrite TE trmx_mul.
  have -> : F^T *m (U^T *m (E s)^T) *m mx r0 r0 (cur_S s) *m (E s *m U) *m F = F^T *m (U^T *m ((E s)^T *m mx r0 r0 (cur_S s) *m E s) *m U) *m F.
    by rewrite !mulmxA.
  rewrite (iL I) (perm_big _ pr) big_cons mulmxDr mulmxDl mulmxDr mulmxDl.
  rewrite -!scalemxAr -!scalemxAl -!scalemxAr -!scalemxAl bar_am_zero add0r.
  rewrite mulmx_sumr mulmx_suml mulmx_sumr mulmx_suml big_seq [RHS]big_seq; apply: eq_bigr => k.
  rewrite mem => /andP[ka kr]; rewrite kr ka new_bar //.
  by rewrite -scalemxAr -scalemxAl -scalemxAr -scalemxAl.
have := iR I; case eS : (S_rep s) => [A|]; case eQ : (Q_rep s) => [[rows Q0]|] //=.
- move=> [_ [-> e0]]; split=> //; split=> //.
  by rewrite mx_mul e0 pad_padded // -pad_mul //; congr (_ *m pad _ _); rewrite -TgE /Tg eS.
- by move=> [].
- by move=> [].
move=> [_ W1]; split=> //; split; first by case: ltnP => // h; apply/eqP; rewrite eqn_leq r0d h.
by rewrite pad_padded // W1 mul1mx; congr (pad _ _); rewrite -TgE /Tg eS.
Qed.
End Pass.

Lemma loop_inv s W fuel : inv s W -> (size (rem_idx s) <= fuel)%N ->
  exists s' W', loop eigh 0 dim lam r0 fuel s = Some (s', Q s') /\ inv s' W' /\
    (S_rep s' = None -> s' = s /\ positive 0 (Q s) (eigh (Q s) (scale (lam (am_norm lam s)) (SJbar s (am_norm lam s)))).1 = Q s).
Proof.
elim: fuel s W => [|fuel ih] s W I.
  by rewrite leqn0 size_eq0 => /eqP e; case: (ine I).
move=> sz /=; have := pass_inv I; case: (pass _ _ _ _ _ _) => [r'|s1|] //.
  by move=> [-> h]; exists s, W; split=> //; split.
move=> [[W1 I1] [lt nS]]; have [|s' [W' [e [I' h]]]] := ih s1 W1 I1.
  by rewrite -ltnS; exact: leq_trans lt sz.
exists s', W'; split=> //; split=> // n; have [e1 _] := h n; by case: nS; rewrite -e1.
Qed.
End Inv.
