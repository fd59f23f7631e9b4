(** C116: the diagonal term of an edge's cost in the platform game's map (plat2d.cc:110-113) never decides. *)
From Coq Require Import Reals Lra Psatz.
Local Open Scope R_scope.

(** plat2d.cc:110-113, in the reals: the largest of the horizontal distance, the vertical one, and the length of the line
    divided by the square root of two. *)
Definition edgecost (dx dy : R) : R := Rmax (Rmax (Rabs dx) (Rabs dy)) (sqrt (dx * dx + dy * dy) / sqrt 2).

(** It is the larger one of the two distances, which is what [span] in Plat2d/Heuristic.v takes. *)
Theorem C116_diagonal dx dy : edgecost dx dy = Rmax (Rabs dx) (Rabs dy).
Proof.
  unfold edgecost. apply Rmax_left. set (m := Rmax (Rabs dx) (Rabs dy)).
  assert (Rabs dx <= m) as Hx by apply Rmax_l. assert (Rabs dy <= m) as Hy by apply Rmax_r.
  pose proof (Rabs_pos dx) as Px. pose proof (Rabs_pos dy) as Py.
  assert (0 < sqrt 2) as H2 by (apply sqrt_lt_R0; lra).
  apply (Rmult_le_reg_r (sqrt 2)); [exact H2|]. unfold Rdiv. rewrite Rmult_assoc, Rinv_l, Rmult_1_r by lra.
  apply Rsqr_incr_0_var; [|apply Rmult_le_pos; lra].
  rewrite Rsqr_sqrt by nra. rewrite Rsqr_mult, Rsqr_sqrt by lra. unfold Rsqr.
  assert (dx * dx = Rabs dx * Rabs dx) as -> by (rewrite <-Rabs_mult; symmetry; apply Rabs_pos_eq; nra).
  assert (dy * dy = Rabs dy * Rabs dy) as -> by (rewrite <-Rabs_mult; symmetry; apply Rabs_pos_eq; nra). nra.
Qed.
Example diagonal_of_a_tile : edgecost (-3) 2 = 3.
Proof. rewrite C116_diagonal. rewrite Rabs_left, Rabs_pos_eq by lra. rewrite Rmax_left; lra. Qed.
Print Assumptions C116_diagonal.
