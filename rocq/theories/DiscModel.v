(** Clustering of series for approximate derivatives of factor smooths.
    Source: /repo/src/mssm/src/python/formula.py (encode_data, Formula.__init__, __discretize, __split_discretize,
    __cluster_discretize).

    Covariates are integers: only the order of values, their equality, and comparisons with equally spaced points
    matter, and data with finitely many digits are integers after a change of unit.  Rounding of np.linspace is not
    modelled.  A matrix is the list of its columns; entries of the table that is clustered are real numbers.
    scipy's kmeans2 is a parameter that is told the number of calls before (the seed grows by one with every call,
    formula.py:1357-1358, so calls may have different results even when the seed is fixed).
    np.argsort (formula.py:1369) is taken to be stable. *)

From Coq Require Import List Bool Arith ZArith Reals String.
Import ListNotations.
Local Open Scope nat_scope.

(** np.unique: sorted, without repetition; formula.py:986, :1148, :1167, :1239, :1243, :1255, :1377. *)
Section Unique.
Variable A : Type.
Variable cmp : A -> A -> comparison.
Fixpoint insert (x : A) (l : list A) : list A :=
  match l with
  | [] => [x]
  | y :: t => match cmp x y with Eq => l | Lt => x :: l | Gt => y :: insert x t end
  end.
Definition unique (l : list A) : list A := fold_right insert [] l.
(** return_inverse and return_index: position of a value. *)
Fixpoint position (x : A) (l : list A) : nat :=
  match l with
  | [] => 0
  | y :: t => match cmp x y with Eq => 0 | _ => S (position x t) end
  end.
End Unique.

(** Rows are compared entry by entry (np.unique with axis=0). *)
Fixpoint lex (a b : list Z) : comparison :=
  match a, b with
  | [], [] => Eq
  | [], _ :: _ => Lt
  | _ :: _, [] => Gt
  | x :: a, y :: b => match Z.compare x y with Eq => lex a b | c => c end
  end.

(** sid, formula.py:985-987, and sub_sid, :1148-1149: rows at which a series id occurs for the first time. *)
Definition first_rows (A : Type) (cmp : A -> A -> comparison) (ids : list A) : list nat :=
  unique nat Nat.compare (map (fun x => position A cmp x ids) (unique A cmp ids)).

(** np.split(l, starts[1:]): number of the part to which row [r] belongs; formula.py:1124, :1152, :1294, :1381. *)
Definition part (starts : list nat) (r : nat) : nat := List.length (filter (fun s => s <=? r) (tl starts)).

(** id_col, formula.py:1123-1126, for [n] rows. *)
Definition id_col (n : nat) (sid : list nat) : list nat := map (part sid) (seq 0 n).

(** l[mask]. *)
Fixpoint select {A} (mask : list bool) (l : list A) : list A :=
  match mask, l with
  | b :: mask, x :: l => if b then x :: select mask l else select mask l
  | _, _ => []
  end.

(** A statistic by which a covariate is collapsed, formula.py:1264-1275, :1322-1326. *)
Inductive stat := N_obs | N_unique.

(** A variable of the formula, its column of cov_flat and whether it is a factor. *)
Record variable := Variable_ { v_name : string; v_factor : bool; v_col : list Z }.

(** The dictionary approx_deriv, terms.py:1486-1500, formula.py:1221-1226. *)
Record options := Options {
  no_disc : list string;
  excl : list string;
  split_by : list string;
  restarts : nat;
  stats : string -> option stat;
  has_stat : bool;
  normalize : bool
}.

Definition mem (s : string) (l : list string) : bool := existsb (String.eqb s) l.

(** np.digitize(x, np.linspace(lo, hi, k)), formula.py:1084-1091: the number of points up to [x]. *)
Definition digit (lo hi : Z) (k : nat) (x : Z) : Z :=
  Z.of_nat (List.length (filter (fun j => (Z.of_nat j * (hi - lo) <=? (x - lo) * (Z.of_nat k - 1))%Z) (seq 0 k))).

(** formula.py:1084-1091; int(len(np.unique(...)) ** 0.5) points. *)
Definition digitize (col : list Z) : list Z :=
  let lo := fold_right Z.min (hd 0%Z col) col in
  let hi := fold_right Z.max (hd 0%Z col) col in
  map (digit lo hi (Nat.sqrt (List.length (unique Z Z.compare col)))) col.

(** __discretize, formula.py:1056-1101: names and columns. *)
Definition discretize (o : options) (vars : list variable) : list (string * list Z) :=
  map (fun v => (v_name v, if mem (v_name v) (no_disc o) then v_col v else digitize (v_col v)))
      (filter (fun v => negb (mem (v_name v) (excl o) || v_factor v)) vars).

(** var_map[name], formula.py:1068: the column of a variable. *)
Definition column_of (vars : list variable) (name : string) : list Z :=
  match find (fun v => String.eqb (v_name v) name) vars with Some v => v_col v | None => [] end.

Inductive outcome (A : Type) := Done (a : A) | IndexError.
Arguments Done {A}.
Arguments IndexError {A}.

(** One part of the data: columns and series number of every row. *)
Record part_of_data := Part { p_cols : list (string * list Z); p_ids : list nat }.

(** Row [r] of some columns. *)
Definition row (cols : list (list Z)) (r : nat) : list Z := map (fun c => nth r c 0%Z) cols.
Definition rows (n : nat) (cols : list (list Z)) : list (list Z) := map (row cols) (seq 0 n).

(** cov_flat[sub_lvl_idx, columns], formula.py:1176-1179: a mask and a list of columns are paired entry by entry,
    which is possible for a single column or for as many columns as rows. *)
Definition paired (n : nat) (cols : list (list Z)) : outcome (list (list Z)) :=
  if List.length cols =? 1 then Done (rows n cols)
  else if n =? List.length cols then Done (map (fun r => [nth r (nth r cols []) 0%Z]) (seq 0 n))
  else IndexError.

(** __split_discretize, formula.py:1103-1194; [sub] is sub_lvl_idx if the term has a by_subgroup, [n] the number of
    rows. *)
Definition split_discretize (o : options) (vars : list variable) (n : nat) (sid : list nat)
  (sub : option (list bool)) (dig : list (string * list Z)) : outcome (list part_of_data) :=
  let ids := id_col n sid in
  let '(dig, ids) :=
    match sub with
    | None => (dig, ids)
    | Some mask =>
        let kept := select mask ids in
        (map (fun c => (fst c, select mask (snd c))) dig,
         id_col (List.length kept) (first_rows nat Nat.compare kept))
    end in
  match split_by o with
  | [] => Done [Part dig ids]
  | _ =>
      let keys :=
        match sub with
        | None => Done (rows n (map (column_of vars) (split_by o)))
        | Some mask =>
            paired (List.length (select mask (id_col n sid)))
                   (map (fun name => select mask (column_of vars name)) (split_by o))
        end in
      match keys with
      | IndexError => IndexError
      | Done keys =>
          let combs := unique (list Z) lex keys in
          Done (map (fun f =>
                  let mask := map (fun key => position (list Z) lex key combs =? f) keys in
                  Part (map (fun c => (fst c, select mask (snd c))) dig) (select mask ids))
                (seq 0 (List.length combs)))
      end
  end.

(** dig_cov_unq_counts and dig_cov_flat_unq_memb, formula.py:1253-1275: number of bins and bin of every row, for every
    column.  [prev] is dig_cov_unq_counts[-1], 0 for the first column. *)
Fixpoint members (o : options) (prev : nat) (cols : list (string * list Z)) : list (nat * list nat) :=
  match cols with
  | [] => []
  | (name, col) :: cols =>
      let unq := unique Z Z.compare col in
      let memb := map (fun x => prev + position Z Z.compare x unq) col in
      let this :=
        match (if has_stat o then stats o name else None) with
        | Some N_obs => (1, map (fun _ => fold_right Nat.min (hd 0 memb) memb) col)
        | _ => (List.length unq, memb)
        end in
      this :: members o (fst this) cols
  end.

(** fact_s_idx and sid_idx, formula.py:1239-1240. *)
Definition fact_s_idx (ids : list nat) : list nat :=
  map (fun s => position nat Nat.compare s ids) (unique nat Nat.compare ids).
Definition sid_idx (ids : list nat) : list nat := unique nat Nat.compare ids.

(** clust, formula.py:1286-1306: how often entry [c] occurs among the bins of the rows of part [s]. *)
Definition occurrences (ms : list (nat * list nat)) (starts : list nat) (n s c : nat) : nat :=
  List.length (filter (fun r => part starts r =? s)
    (flat_map (fun m => filter (fun r => nth r (snd m) 0 =? c) (seq 0 n)) ms)).
Definition count_table (ms : list (nat * list nat)) (starts : list nat) (n n_series : nat) : list (list R) :=
  map (fun s => map (fun c => INR (occurrences ms starts n s c)) (seq 0 (list_sum (map fst ms)))) (seq 0 n_series).

(** Sums. *)
Definition total (l : list R) : R := fold_right Rplus 0%R l.

(** clust2, formula.py:1310-1337. *)
Fixpoint collapse (o : options) (start : nat) (cols : list (string * nat)) (x : list R) : list R :=
  match cols with
  | [] => []
  | (name, cnt) :: cols =>
      let this := firstn cnt (skipn start x) in
      let this := match stats o name with
                  | Some N_unique => [INR (List.length (filter (fun v => if Rlt_dec 0 v then true else false) this))]
                  | _ => this
                  end in
      this ++ collapse o (start + cnt) cols x
  end.

(** formula.py:1341-1344; entries are not negative. *)
Definition norms (t : list (list R)) : list R :=
  map (fun c => total (map (fun x => nth c x 0%R) t)) (seq 0 (List.length (hd [] t))).
Definition normalized (t : list (list R)) : list (list R) :=
  map (fun x => map (fun vd => if Req_EM_T (snd vd) 0 then fst vd else (fst vd / snd vd)%R) (combine x (norms t))) t.

(** The table of a part of the data, formula.py:1239-1344. *)
Definition table (o : options) (p : part_of_data) : list (list R) :=
  let n := List.length (p_ids p) in
  let ms := members o 0 (p_cols p) in
  let t := count_table ms (fact_s_idx (p_ids p)) n (List.length (sid_idx (p_ids p))) in
  let t := if has_stat o then map (collapse o 0 (combine (map fst (p_cols p)) (map fst ms))) t else t in
  if normalize o then normalized t else t.

(** Number of centroids, formula.py:1352. *)
Definition n_clusters (p : part_of_data) : nat :=
  let n := List.length (p_ids p) in
  Nat.sqrt (List.length (p_cols p) * List.length (unique (list Z) lex (rows n (map snd (p_cols p))))).

(** error, formula.py:1363-1366, of one part of the data. *)
Definition loss (t centroids : list (list R)) (labels : list nat) : R :=
  total (map (fun k =>
    total (map (fun xl => if snd xl =? k then
                            total (map (fun vc => ((fst vc - snd vc) * (fst vc - snd vc))%R)
                                       (combine (fst xl) (nth k centroids [])))
                          else 0%R) (combine t labels))) (seq 0 (List.length centroids))).

(** idx_grouped, formula.py:1369-1381: rows of every cluster. *)
Definition grouped (labels : list nat) : list (list nat) :=
  map (fun k => filter (fun i => nth i labels 0 =? k) (seq 0 (List.length labels))) (unique nat Nat.compare labels).

(** np.argmax and np.max. *)
Fixpoint argmax (l : list R) : nat :=
  match l with
  | [] => 0
  | [x] => 0
  | x :: t => let k := argmax t in if Rlt_dec x (nth k t 0%R) then S k else 0
  end.
Definition maximum (l : list R) : R := nth (argmax l) l 0%R.

(** A cluster: series kept for it and weights, formula.py:1391-1394. *)
Definition summary (t : list (list R)) (sids : list nat) (clu : list nat) : nat * list R :=
  let sums := map (fun i => total (nth i t [])) clu in
  (nth (nth (argmax sums) clu 0) sids 0, map (fun s => (s / maximum sums)%R) sums).

(** Result of one repetition: clusters of all parts, and the error. *)
Fixpoint repetition (kmeans : nat -> list (list R) -> nat -> list (list R) * list nat) (o : options) (call : nat)
  (ps : list part_of_data) : list (nat * list R) * R :=
  match ps with
  | [] => ([], 0%R)
  | p :: ps =>
      let t := table o p in
      let '(centroids, labels) := kmeans call t (n_clusters p) in
      let '(rest, e) := repetition kmeans o (S call) ps in
      (map (summary t (sid_idx (p_ids p))) (grouped labels) ++ rest, (loss t centroids labels + e)%R)
  end.

(** __cluster_discretize, formula.py:1196-1406: clust_series and clust_weights, pairwise; None before the first
    repetition. *)
Fixpoint restart (kmeans : nat -> list (list R) -> nat -> list (list R) * list nat) (o : options)
  (ps : list part_of_data) (n call : nat) (best : option (list (nat * list R) * R)) : option (list (nat * list R) * R) :=
  match n with
  | O => best
  | S n =>
      let new := repetition kmeans o call ps in
      let best := match best with
                  | None => Some new
                  | Some b => if Rlt_dec (snd new) (snd b) then Some new else best
                  end in
      restart kmeans o ps n (call + List.length ps) best
  end.
Definition cluster_discretize kmeans (o : options) (ps : list part_of_data) : option (list (nat * list R)) :=
  option_map fst (restart kmeans o ps (restarts o) 0 None).

(** formula.py:639-643 and :2218-2224: clusters are stored in the dictionary that was passed to the term, and read
    from there when penalties are built.  A term has the number of its dictionary and the clusters that its own data
    lead to; [heap] holds what every dictionary has stored. *)
Definition heap := nat -> option (list (nat * list R)).
Definition store (h : heap) (d : nat) (c : option (list (nat * list R))) : heap :=
  fun e => if e =? d then c else h e.
Definition cluster_terms (h : heap) (terms : list (nat * option (list (nat * list R)))) : heap :=
  fold_left (fun h t => store h (fst t) (snd t)) terms h.
Definition clust_of_penalties (terms : list (nat * option (list (nat * list R)))) :
  list (option (list (nat * list R))) :=
  map (fun t => cluster_terms (fun _ => None) terms (fst t)) terms.
