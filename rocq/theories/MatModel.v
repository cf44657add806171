(** Dense matrices and vectors of exact rationals as lists, with the numpy operations that
    pytimize uses.  Trusted reading of numpy: [@] is the matrix product, [np.linalg.det] the
    determinant, [np.linalg.inv] the inverse (LinAlgError when the determinant is zero), all
    without rounding. *)
From Coq Require Import List Bool Arith QArith Qcanon.
From Verif Require Import Py QcTac QSum.
Import ListNotations.
Open Scope nat_scope.

(** [v[i]], and 0 outside the array *)
Definition at_ (v : list Qc) (i : nat) : Qc := nth i v 0%Qc.
(** [M[i, j]] *)
Definition ent (M : list (list Qc)) (i j : nat) : Qc := at_ (nth i M []) j.

Definition mkvec (n : nat) (f : nat -> Qc) : list Qc := map f (seq 0 n).
Definition mkmat (m n : nat) (f : nat -> nat -> Qc) : list (list Qc) := map (fun i => mkvec n (f i)) (seq 0 m).

(** [Sum n f] = f 0 + ... + f (n-1) *)
Definition Sum (n : nat) (f : nat -> Qc) : Qc := Sigma (seq 0 n) f.

(** [u @ v] *)
Definition dot (u v : list Qc) : Qc := Sum (length u) (fun i => (at_ u i * at_ v i)%Qc).
(** [M @ v], [v @ M], [M @ N], [M.T]; [n] is the number of columns *)
Definition mulmv (M : list (list Qc)) (v : list Qc) : list Qc := map (fun r => dot r v) M.
Definition mulvm (n : nat) (v : list Qc) (M : list (list Qc)) : list Qc :=
  mkvec n (fun j => Sum (length v) (fun i => (at_ v i * ent M i j)%Qc)).
Definition mulmm (n : nat) (M N : list (list Qc)) : list (list Qc) := map (fun r => mulvm n r N) M.
Definition transpose (n : nat) (M : list (list Qc)) : list (list Qc) :=
  mkmat n (length M) (fun i j => ent M j i).
(** [M[:, s]], [v[s]] *)
Definition take (s : list nat) (v : list Qc) : list Qc := map (at_ v) s.
Definition columns_of (s : list nat) (M : list (list Qc)) : list (list Qc) := map (take s) M.
(** [u + v], [u - v], [-v], [k * v] *)
Definition vadd (u v : list Qc) : list Qc := map (fun p => (fst p + snd p)%Qc) (combine u v).
Definition vsub (u v : list Qc) : list Qc := map (fun p => (fst p - snd p)%Qc) (combine u v).
Definition vopp (v : list Qc) : list Qc := map Qcopp v.

(** indices with [i] left out *)
Definition skip (i k : nat) : nat := if k <? i then k else S k.
Definition alt (i : nat) (x : Qc) : Qc := if Nat.even i then x else (- x)%Qc.

(** the determinant of the [n] by [n] matrix [f], by expansion along the first row *)
Fixpoint det (n : nat) (f : nat -> nat -> Qc) : Qc :=
  match n with
  | 0 => 1%Qc
  | S n' => Sum n (fun j => alt j (f O j * det n' (fun a b => f (S a) (skip j b)))%Qc)
  end.
(** the inverse, by cofactors *)
Definition inverse (n : nat) (f : nat -> nat -> Qc) : nat -> nat -> Qc :=
  fun i j => (alt (i + j) (det (pred n) (fun a b => f (skip j a) (skip i b))) / det n f)%Qc.

(** [np.linalg.det(M)], [np.linalg.inv(M)] for a square matrix given by its rows *)
Definition mdet (M : list (list Qc)) : Qc := det (length M) (ent M).
Definition minv (M : list (list Qc)) : res (list (list Qc)) :=
  if qeq (mdet M) 0 then Raise LinAlgError
  else Ok (mkmat (length M) (length M) (inverse (length M) (ent M))).
