(** The No-U-Turn sampler of cpp/mcmc.cpp.

    Simplifications used throughout.  Numbers are real numbers, so overflow to NaN is not represented.  Column
    vectors are functions of the index, of which the first [n] entries matter; the sparse matrix Minv is a
    function of row and column.  llk_fun and grad_fun are arbitrary functions that always return the same
    result for the same argument (they call back into Python).  A comparison [p > U(gen)] with a new uniform
    draw is the constructor [Below]; both outcomes are followed.  r_sampler and the exponential distribution
    are not represented: the momentum and the exponential draw of every step are arguments. *)

From Coq Require Import List ZArith Reals Bool.
Import ListNotations.
Local Open Scope R_scope.

Definition vec := nat -> R.
Definition vadd (x y : vec) : vec := fun i => x i + y i.
Definition vscale (c : R) (x : vec) : vec := fun i => c * x i.
(** Sums over the first [n] entries. *)
Fixpoint vsum (n : nat) (x : vec) : R := match n with O => 0 | S n => vsum n x + x n end.
Definition dot (n : nat) (x y : vec) : R := vsum n (fun i => x i * y i).
Definition mul (n : nat) (A : nat -> vec) (x : vec) : vec := fun i => dot n (A i) x.

(** A computation that draws from U(gen): [Below p k] continues with [k true] if p > U(gen) and with
    [k false] otherwise, mcmc.cpp:260-263, 486, 522. *)
Inductive rnd (A : Type) : Type :=
| Ret (a : A)
| Below (p : R) (k : bool -> rnd A).
Arguments Ret {A}. Arguments Below {A}.

Fixpoint bind {A B} (x : rnd A) (f : A -> rnd B) : rnd B :=
  match x with Ret a => f a | Below p k => Below p (fun hit => bind (k hit) f) end.

(** What build_tree returns, mcmc.cpp:118-129. *)
Record tree := Tree {
  statem : vec; statep : vec; stateprime : vec; rm : vec; rp : vec; rsum : vec;
  nprime : nat; sprime : bool; aprime : R; naprime : nat; Lprime : R }.

Section Nuts.
Variables (n : nat) (Minv : nat -> vec) (llk : vec -> R) (grad : vec -> vec).

(** compute_energy, mcmc.cpp:19-29. *)
Definition compute_energy (r : vec) : R := 1 / 2 * dot n r (mul n Minv r).

(** leap_frog, mcmc.cpp:36-68: (state', grad', r', llk'). *)
Definition leap_frog (state g r : vec) (eps : R) : vec * vec * vec * R :=
  let r1 := vadd r (vscale (1 / 2 * eps) g) in
  let state' := vadd state (vscale eps (mul n Minv r1)) in
  let g' := grad state' in
  (state', g', vadd r1 (vscale (1 / 2 * eps) g'), llk state').

Definition pos (x : R) : bool := if Rlt_dec 0 x then true else false.

(** check_dynamic_divergence, mcmc.cpp:70-115; s is a truth value, the products of ints are conjunctions. *)
Definition check_dynamic_divergence (rb1 rb2 re1 re2 rsum1 rsum2 : vec) : bool :=
  let rsum := vadd rsum1 rsum2 in
  let sharp := mul n Minv in
  let sub1 := vadd rsum1 rb2 in
  let sub2 := vadd rsum2 re1 in
  (pos (dot n (sharp rb1) rsum) && pos (dot n (sharp re2) rsum))
  && (pos (dot n (sharp rb1) sub1) && pos (dot n (sharp rb2) sub1))
  && (pos (dot n (sharp re1) sub2) && pos (dot n (sharp re2) sub2)).

(** DeltaMax = 1000, mcmc.cpp:424. *)
Definition DeltaMax : R := 1000.

Variables (logu epsilon H0 : R).

(** The base case of build_tree, mcmc.cpp:161-194. *)
Definition leaf (state r : vec) (v : Z) : tree :=
  match leap_frog state (grad state) r (IZR v * epsilon) with
  | (state', _, r', L') =>
      let H' := L' - compute_energy r' in
      let lp := H' - H0 in
      Tree state' state' state' r' r' r'
           (if Rle_dec logu H' then 1 else 0)
           (if Rlt_dec logu (DeltaMax + H') then true else false)
           (if Rlt_dec 0 lp then 1 else exp lp) 1 L'
  end.

(** build_tree, mcmc.cpp:130-289.  The two branches for v only differ in which end is extended. *)
Fixpoint build_tree (state r : vec) (v : Z) (j : nat) : rnd tree :=
  match j with
  | O => Ret (leaf state r v)
  | S j =>
      bind (build_tree state r v j) (fun t1 =>
      if sprime t1 then
        bind (if (v =? -1)%Z then build_tree (statem t1) (rm t1) v j else build_tree (statep t1) (rp t1) v j)
          (fun t2 =>
           let rb1 := if (v =? -1)%Z then rp t1 else rm t1 in
           let re1 := if (v =? -1)%Z then rm t1 else rp t1 in
           let rb2 := if (v =? -1)%Z then rp t2 else rm t2 in
           let re2 := if (v =? -1)%Z then rm t2 else rp t2 in
           Below (INR (nprime t2) / INR (nprime t1 + nprime t2)) (fun hit =>
           let take := (0 <? nprime t1 + nprime t2)%nat && hit in
           Ret (Tree (if (v =? -1)%Z then statem t2 else statem t1)
                     (if (v =? -1)%Z then statep t1 else statep t2)
                     (if take then stateprime t2 else stateprime t1)
                     (if (v =? -1)%Z then rm t2 else rm t1)
                     (if (v =? -1)%Z then rp t1 else rp t2)
                     (vadd (rsum t1) (rsum t2))
                     (nprime t1 + nprime t2)
                     (sprime t2 && check_dynamic_divergence rb1 rb2 re1 re2 (rsum t1) (rsum t2))
                     (aprime t1 + aprime t2)
                     (naprime t1 + naprime t2)
                     (if take then Lprime t2 else Lprime t1))))
      else Ret t1)
  end.

(** The variables of one step of advance_chain, mcmc.cpp:459-482; a and na are not initialised, [None]. *)
Record trajectory := Trajectory {
  cstate : vec; cL : R; tm : vec; tp : vec; trm : vec; trp : vec; trsum : vec; tn : nat;
  stat : option (R * nat) }.

(** while (s == 1 && j < max_j), mcmc.cpp:484-541; [fuel] is max_j - j. *)
Fixpoint doubling (fuel j : nat) (s : trajectory) : rnd trajectory :=
  match fuel with
  | O => Ret s
  | S fuel =>
      Below (1 / 2) (fun low =>
      let v := if low then (-1)%Z else 1%Z in
      let rb1 := if (v =? -1)%Z then trp s else trm s in
      let re1 := if (v =? -1)%Z then trm s else trp s in
      bind (if (v =? -1)%Z then build_tree (tm s) (trm s) v j else build_tree (tp s) (trp s) v j) (fun t =>
      let rb2 := if (v =? -1)%Z then rp t else rm t in
      let re2 := if (v =? -1)%Z then rm t else rp t in
      bind (if sprime t
            then Below (INR (nprime t) / INR (tn s)) (fun hit =>
                 Ret (if hit then (stateprime t, Lprime t) else (cstate s, cL s)))
            else Ret (cstate s, cL s)) (fun c =>
      let s' := Trajectory (fst c) (snd c)
                  (if (v =? -1)%Z then statem t else tm s) (if (v =? -1)%Z then tp s else statep t)
                  (if (v =? -1)%Z then rm t else trm s) (if (v =? -1)%Z then trp s else rp t)
                  (vadd (trsum s) (rsum t)) (tn s + nprime t) (Some (aprime t, naprime t)) in
      if sprime t && check_dynamic_divergence rb1 rb2 re1 re2 (trsum s) (rsum t)
      then doubling fuel (S j) s' else Ret s')))
  end.

End Nuts.

Section Chain.
Variables (n : nat) (Minv : nat -> vec) (llk : vec -> R) (grad : vec -> vec).

(** One step of advance_chain up to the end of the while loop, mcmc.cpp:445-541; [e] is the draw of ed(gen). *)
Definition nuts_step (max_j : nat) (epsilon : R) (c : vec) (L : R) (r0 : vec) (e : R) : rnd trajectory :=
  let H0 := L - compute_energy n Minv r0 in
  doubling n Minv llk grad (H0 - e) epsilon H0 max_j 0 (Trajectory c L c c r0 r0 r0 1 None).

(** Where the chain is: m, cL, cstate, epsilon, epsilonbar, Hbar. *)
Record chain := Chain { m : nat; curL : R; cur : vec; eps : R; epsbar : R; Hbar : R }.

Variables (Madapt max_j : nat) (mu delta kappa gamma t0 junk : R).

(** The dual averaging, mcmc.cpp:543-558; [junk] is a / na when neither was ever assigned. *)
Definition adapt (st : option (R * nat)) (c : chain) : chain :=
  let m' := S (m c) in
  if (m' <? Madapt)%nat then
    let oomt := 1 / (INR m' + t0) in
    let ratio := match st with Some (a, na) => a / INR na | None => junk end in
    let Hbar' := (1 - oomt) * Hbar c + oomt * (delta - ratio) in
    let eps' := exp (mu - sqrt (INR m') / gamma * Hbar') in
    let oomt := Rpower (INR m') (- kappa) in
    Chain m' (curL c) (cur c) eps' (exp (oomt * ln eps' + (1 - oomt) * ln (epsbar c))) Hbar'
  else Chain m' (curL c) (cur c) (epsbar c) (epsbar c) (Hbar c).

(** advance_chain, mcmc.cpp:372-566: one element of [draws] per step, the recorded llks and states in order
    and the variables of the chain afterwards. *)
Fixpoint advance_chain (draws : list (vec * R)) (c : chain) : rnd (list (R * vec) * chain) :=
  match draws with
  | [] => Ret ([], c)
  | (r0, e) :: draws =>
      bind (nuts_step max_j (eps c) (cur c) (curL c) r0 e) (fun s =>
      let c' := adapt (stat s) (Chain (m c) (cL s) (cstate s) (eps c) (epsbar c) (Hbar c)) in
      bind (advance_chain draws c') (fun res =>
      Ret ((cL s, cstate s) :: fst res, snd res)))
  end.

(** find_reasonable_epsilon, mcmc.cpp:292-369; [None]: more than [fuel] iterations of the while loop. *)
Definition log_ratio (state r : vec) (L : R) (epsilon : R) : R :=
  match leap_frog n Minv llk grad state (grad state) r epsilon with
  | (_, _, r', L') => (L' - compute_energy n Minv r') - (L - compute_energy n Minv r)
  end.
Fixpoint search (fuel : nat) (state r : vec) (L alpha epsilon : R) : option R :=
  if Rlt_dec (ln 2 * -1 * alpha) (log_ratio state r L epsilon * alpha) then
    match fuel with O => None | S fuel => search fuel state r L alpha (epsilon * Rpower 2 alpha) end
  else Some epsilon.
Definition find_reasonable_epsilon (fuel : nat) (state r : vec) (L : R) : option R :=
  let epsilon := 1 / 10 in
  let alpha := if Rlt_dec (ln (1 / 2)) (log_ratio state r L epsilon) then 1 else -1 in
  search fuel state r L alpha epsilon.

End Chain.
