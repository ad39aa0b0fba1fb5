(** Lemmas for C113: line sampling along a direction that is not the limit state's normal. *)
From Coquelicot Require Import Coquelicot.
From Verif Require Import Base Ext Gauss GaussProofs StochModel LimitState Transf Form Sorm Ls LsProofs.
From Coq Require Import ZArith Lra Lia.
Open Scope R_scope.

Lemma dot_line n a v al c : dot n a (line_pt v al c) = dot n a v + c * dot n a al.
Proof. unfold dot, line_pt. rewrite <- fsum_scal, <- fsum_plus. apply fsum_ext. intros; ring. Qed.

(** along the line the limit state is h(c) = s (beta - a.v - kappa c); its root is found when it lies in the scan *)
Lemma fli_slanted n a al ev brentq beta bF s eps v : let kappa := dot n a al in let root := (beta - dot n a v) / kappa in
  0 < s -> kappa <> 0 -> (forall u, ev u = Some (s * (beta - dot n a u))) -> brent_accurate eps brentq ->
  - c_max bF < root <= c_max bF -> 
  Rabs (find_line_intersection ev brentq v al bF - root) <= eps.
Proof.
  intros kappa root Hs Hk Hev HB BR.
  set (h := fun c => s * (kappa * (root - c))).
  assert (HL : forall c, ev (line_pt v al c) = Some (h c)).
  { intros c. rewrite Hev, dot_line. fold kappa. unfold h, root. do 2 f_equal. field. exact Hk. }
  destruct (grid_step bF root BR) as (j & Hj & J1 & J2).
  unfold find_line_intersection. cbv zeta. set (g := fun j => ev (line_pt v al (c_scan bF j))).
  pose proof (bracket_spec g) as BS.
  assert (SJ : crossing g j).
  { exists (h (c_scan bF j)), (h (c_scan bF (S j))). unfold g. rewrite !HL. refine (conj eq_refl (conj eq_refl _)). unfold h.
    assert (X : 0 <= (root - c_scan bF j) * (c_scan bF (S j) - root)) by (apply Rmult_le_pos; lra).
    assert (Y : 0 <= (s * kappa) * (s * kappa)) by nra. pose proof (Rmult_le_pos _ _ Y X). nra. }
  destruct (bracket g) as [i|].
  - destruct BS as (Hi & CR & _). pose proof (c_scan_mono bF i (S i) ltac:(lia)) as M. rewrite Rmin_left, Rmax_right by lra.
    destruct CR as (g1 & g2 & G1 & G2 & G12). unfold g in G1, G2. rewrite HL in G1, G2. injection G1 as <-. injection G2 as <-.
    destruct (HB (fun c => ev (line_pt v al c)) h (c_scan bF i) (c_scan bF (S i)) ltac:(lra) HL) as (c & r & EB & Hr & Er & Hc).
    + intros c. unfold h. reg.
    + exact G12.
    + rewrite EB. unfold h in Er. apply Rmult_integral in Er. destruct Er as [Er|Er]; [lra|]. apply Rmult_integral in Er. destruct Er as [Er|Er]; [contradiction|].
      assert (R0 : r = root) by lra. rewrite R0 in Hc. exact Hc.
  - exfalso. exact (BS j Hj SJ).
Qed.
