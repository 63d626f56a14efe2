(* Specification of convolution and of batched matrix products, row-major, modulo 2^k. *)
From Verif Require Import Base Ring_spec Conv_spec Dyn_spec Mm_spec.
Open Scope nat_scope.

(* element [b; i; j; o] of z is the sum over the window [x; y] and the channels q of
   a[b; i * sh + x; j * sw + y; q] * f[x; y; q; o] *)
Definition is_convolution (k : Z) (N H W C h w O sh sw hh ww : nat) (a f z : nat -> Z) : Prop :=
  forall b i j o, b < N -> i < hh -> j < ww -> o < O ->
  is_mod k (sumZ (map (fun x => sumZ (map (fun y => sumZ (map (fun q =>
              (a (flat [N; H; W; C] [b; i * sh + x; j * sw + y; q]%nat) * f (flat [h; w; C; O] [x; y; q; o]))%Z) (seq 0 C))) (seq 0 w))) (seq 0 h)))
           (z (flat [N; hh; ww; O] [b; i; j; o])).
(* the number of positions at which a window of length win fits into len when it moves by step *)
Definition positions (len win step cnt : nat) : Prop := forall i, i < cnt <-> i * step + win <= len.

(* one product per index of the first axis *)
Definition is_batched_product (k : Z) (B m K c : nat) (a b z : nat -> Z) : Prop :=
  forall t, t < B -> is_product k m K c (fun p => a (t * (m * K) + p)) (fun p => b (t * (K * c) + p)) (fun p => z (t * (m * c) + p)).
