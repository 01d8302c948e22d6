(** The cache directory for row subsets of the model matrix: file_loading.py, gamm_solvers.py.

    Paths are relative to the working directory, as lists of names; the working directory itself is the empty list
    and cannot be removed.  A path "./x" has the components of "x". *)

From Coq Require Import List Bool Arith String.
Import ListNotations.

Definition path := list string.
Inductive node := Dir | File.

(** What is in the working directory; the first entry for a path counts. *)
Definition fs := list (path * node).

Definition path_eqb (p q : path) : bool := if list_eq_dec string_dec p q then true else false.
Definition lookup (s : fs) (p : path) : option node := option_map snd (find (fun e => path_eqb (fst e) p) s).
Definition erase (s : fs) (p : path) : fs := filter (fun e => negb (path_eqb (fst e) p)) s.

(** os.path.isdir, file_loading.py:182. *)
Definition isdir (s : fs) (p : path) : bool :=
  match p with [] => true | _ => match lookup s p with Some Dir => true | _ => false end end.

(** os.listdir, file_loading.py:206 and gamm_solvers.py:3315: names of the entries of a directory. *)
Definition listdir (s : fs) (p : path) : list string :=
  flat_map (fun e => match rev (fst e) with x :: r => if path_eqb (rev r) p then [x] else [] | [] => [] end) s.

(** An exception or a new state.  FileExistsError, NotADirectoryError, FileNotFoundError, IsADirectoryError and
    OSError (directory not empty) are not distinguished. *)
Inductive outcome := ValueError | OSError | Done (s : fs).

(** os.makedirs, file_loading.py:184: the parents that are missing and then the directory itself, which must not
    exist. *)
Fixpoint makedirs_from (s : fs) (base rest : path) : outcome :=
  match rest with
  | [] => Done s
  | c :: r =>
      let p := base ++ [c] in
      match lookup s p with
      | Some File => OSError
      | Some Dir => match r with [] => OSError | _ => makedirs_from s p r end
      | None => makedirs_from ((p, Dir) :: s) p r
      end
  end.
Definition makedirs (s : fs) (p : path) : outcome := match p with [] => OSError | _ => makedirs_from s [] p end.

(** os.remove, file_loading.py:207. *)
Definition remove (s : fs) (p : path) : outcome :=
  match lookup s p with Some File => Done (erase s p) | _ => OSError end.

(** os.rmdir, called by os.removedirs: only an empty directory, and not the working directory. *)
Definition rmdir (s : fs) (p : path) : outcome :=
  match p with
  | [] => OSError
  | _ => match lookup s p, listdir s p with Some Dir, [] => Done (erase s p) | _, _ => OSError end
  end.

(** os.removedirs, file_loading.py:208: the directory, and then its parents until one cannot be removed.  [rp] is the
    path of a parent in reverse order. *)
Fixpoint prune (s : fs) (rp : path) : fs :=
  match rp with
  | [] => s
  | _ :: r => match rmdir s (rev rp) with Done s' => prune s' r | _ => s end
  end.
Definition removedirs (s : fs) (p : path) : outcome :=
  match rmdir s p with Done s' => Done (prune s' (tl (rev p))) | o => o end.

(** setup_cache, file_loading.py:171-192. *)
Definition setup_cache (s : fs) (cache_dir : path) (should_cache : bool) : outcome :=
  if should_cache then if isdir s cache_dir then ValueError else makedirs s cache_dir else Done s.

(** clear_cache, file_loading.py:195-208. *)
Fixpoint remove_all (s : fs) (cache_dir : path) (files : list string) : outcome :=
  match files with
  | [] => Done s
  | f :: r => match remove s (cache_dir ++ [f]) with Done s' => remove_all s' cache_dir r | o => o end
  end.
Definition clear_cache (s : fs) (cache_dir : path) (should_cache : bool) : outcome :=
  if should_cache then
    match remove_all s cache_dir (listdir s cache_dir) with Done s' => removedirs s' cache_dir | o => o end
  else Done s.

(** scp.sparse.save_npz, gamm_solvers.py:3332: creates or overwrites a file in the cache. *)
Definition save_npz (s : fs) (cache_dir : path) (target : string) : fs :=
  (cache_dir ++ [target], File) :: erase s (cache_dir ++ [target]).

(** solve_gamm_sparse2 as far as files are concerned, gamm_solvers.py:3935-4210: set up, write matrices, clear.  With
    [crash] an exception is raised somewhere in between, so that clear_cache is not reached: the state is what has
    been written until then.  Without caching nothing is written. *)
Definition fit (s : fs) (cache_dir : path) (should_cache : bool) (targets : list string) (crash : bool) : outcome :=
  match setup_cache s cache_dir should_cache with
  | Done s1 =>
      let s2 := if should_cache then fold_left (fun s t => save_npz s cache_dir t) targets s1 else s1 in
      if crash then Done s2 else clear_cache s2 cache_dir should_cache
  | o => o
  end.
