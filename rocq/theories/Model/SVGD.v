(** Model of pysgmcmc/samplers/svgd.py.  A matrix is the list of its rows; row i belongs
    to particle i. *)
From Coq Require Import String List Arith ZArith Bool.
From Verif.Base Require Import Py Num Vec.
From Verif.Model Require Import TensorUtils.
Import ListNotations.
Local Open Scope list_scope.

Section S.
Context {T : Type} `{Num T} `{NumT T}.

(** [tf.matmul(A, B)], B with d columns *)
Definition matmul (d : nat) (A B : list (list T)) : list (list T) :=
  map (fun a => map (fun j => nsum (vmap2 nmul a (map (fun b => nth j b n0) B))) (seq 0 d)) A.

(** The rows of a flat (n,n) matrix. *)
Definition rows_of (n : nat) (l : list T) : list (list T) := map (row n l) (seq 0 n).

(** elementwise on matrices *)
Definition mmap (f : T -> T) (A : list (list T)) : list (list T) := map (map f) A.
Definition mmap2 (f : T -> T -> T) (A B : list (list T)) : list (list T) := vmap2 (vmap2 f) A B.

(** [self.n_particles], svgd.py:108-110 *)
Definition n_particles (n : nat) : T := nint (Z.of_nat n).

(** svgd_kernel, svgd.py:146-180: bandwidth, kernel matrix, kernel gradients. *)
Definition svgd_kernel (n d : nat) (X : list (list T))
  : res (T * list (list T) * list (list T)) :=
  do v <- pdist (OTensor {| shape := [n; d]; data := concat X |}) "euclidean"%string;   (* 164 *)
  do sq <- squareform (OTensor v);
  let pd := map (fun x => npow x 2) (data sq) in                         (* 165 *)
  do med <- median {| shape := shape sq; data := pd |};
  let h := nsqrt ((nfrac 1 2 * med) / nln (n_particles n + n1))%num in   (* 168-170 *)
  let K := rows_of n (map (fun p => nexp (((- p) / npow h 2) / n2)%num) pd) in   (* 172 *)
  let kernel_sum := map nsum K in                                        (* 173 *)
  let G := mmap2 nadd (mmap nopp (matmul d K X))
             (vmap2 (fun x s => map (fun y => nmul y s) x) X kernel_sum) in      (* 175-178 *)
  Ok (h, K, mmap (fun g => ndiv g (npow h 2)) G).                        (* 180 *)

(** Constants of the sampler (svgd.py:100-102, 132-133) *)
Record sconfig := SConfig { s_alpha : T; s_fudge : T }.

(** [grad_theta], svgd.py:125-128: [L] are the gradients of the cost, one row per
    particle (121). *)
Definition svgd_grad (n d : nat) (X L : list (list T)) : res (list (list T)) :=
  do (h, K, G) <- svgd_kernel n d X;
  Ok (mmap (fun y => ndiv y (n_particles n)) (mmap2 nadd (matmul d K L) G)).

(** One step: new particles and new historical_grad. *)
Definition svgd_step (c : sconfig) (eps : T) (n d : nat) (X L H : list (list T))
  : res (list (list T) * list (list T)) :=
  do g <- svgd_grad n d X L;
  let H' := mmap2 (fun h y => (s_alpha c * h + (n1 - s_alpha c) * npow y 2)%num) H g in   (* 130-133 *)
  let adj := mmap2 (fun y h => (y / (s_fudge c + nsqrt h))%num) g H' in  (* 135-138 *)
  Ok (mmap2 (fun x a => (x - eps * a)%num) X adj, H').                   (* 140-144 *)

(** Successive steps; each input is the fed stepsize and the gradients of the cost at
    the current particles. *)
Fixpoint svgd_run (c : sconfig) (n d : nat) (inputs : list (T * list (list T))) (st : list (list T) * list (list T))
  : res (list (list T) * list (list T)) :=
  match inputs with
  | [] => Ok st
  | (eps, L) :: rest => do st' <- svgd_step c eps n d (fst st) L (snd st); svgd_run c n d rest st'
  end.

(** historical_grad at construction, svgd.py:112-119 *)
Definition svgd_history (n d : nat) : list (list T) := repeat (repeat n0 d) n.

End S.
Arguments sconfig : clear implicits.

(** [isinstance(v, (int, float))] *)
Definition is_number (v : pyval) : bool :=
  match v with PInt _ | PBool _ | PFloat _ _ => true | _ => false end.

(** The checks of the constructor on its arguments and on the static shapes of
    the particles: svgd.py:81-83; [tf.stack] (85) needs at least one particle and equal
    shapes; [tf.squeeze] (121) drops all dimensions of size one of the (1, n, ...)
    list of gradients; [pdist] (164) needs rank two; [tf.matmul] (126) needs rank two
    and n rows.  (For n = 1 the empty list of distances has type float32 and the division at
    169 already fails, with the same exception.) *)
Definition svgd_construct (alpha fudge : pyval) (cost_callable : bool) (shapes : list (list nat)) : res unit :=
  do _ <- assert_ (is_number alpha);
  do _ <- assert_ (is_number fudge);
  do _ <- assert_ cost_callable;
  match shapes with
  | [] => Raise ValueError
  | s :: rest =>
      if forallb (fun s' => if list_eq_dec Nat.eq_dec s s' then true else false) rest then
        let stacked := length shapes :: s in
        let squeezed := filter (fun k => negb (k =? 1)) (1 :: stacked) in
        match stacked with
        | [n; d] =>
            match squeezed with
            | [n'; d'] => if n' =? n then Ok tt else Raise ValueError
            | _ => Raise ValueError
            end
        | _ => Raise ValueError
        end
      else Raise ValueError
  end.
