(** Model of contact_kernels.cpp: Nitsche contact between two deformable bodies,
    frictionless, with Tresca and with Coulomb friction. *)
From Coq Require Import List Arith Reals.
Import ListNotations.
From Verif Require Import Prelude RSum RayModel OpsModel AssemblyModel KernelModel MeshTieKernelModel.
Local Open Scope R_scope.

Section Kernels.
  Context (kd : kernel_data) (junk : geometry).
  Notation gdim := (kd_gdim kd).
  Notation bs := (kd_bs kd).
  Notation nd := (kd_ndofs kd).
  Notation off := (offsets kd).

  (** ** Quantities at a quadrature point
      Every kernel repeats these statements at the head of its quadrature loop;
      the model states them once.  The lines are those of unbiased_rhs. *)
  (** contact_kernels.cpp:138-148. *)
  Definition n_surf (c : list R) (q i : nat) : R := - nth (off 2 + q * gdim + i)%nat c 0.
  Definition n_dot (c : list R) (g : geometry) (q : nat) : R := for_loop gdim (fun i acc => acc + g_n g i * n_surf c q i) 0.
  Definition normal_gap (c : list R) (q : nat) : R := for_loop gdim (fun i acc => acc + nth (off 1 + q * gdim + i)%nat c 0 * n_surf c q i) 0.
  (** contact_kernels.cpp:180: [lmbda * tr(i, n) * n_dot + mu * epsn(i, n)], from 150-151. *)
  Definition basis_sign (c : list R) (g : geometry) (f q i n : nat) : R :=
    let q_pos := (kd_qp_offsets kd f + q)%nat in
    nth 1 c 0 * strain_trace kd (g_K g) q_pos i n * n_dot c g q + nth 0 c 0 * normal_strain kd (g_K g) (n_surf c q) (g_n g) q_pos i n.
  (** contact_kernels.cpp:153-157. *)
  Definition sig_n_u (c : list R) (g : geometry) (q : nat) : nat -> R :=
    sigma_n_u gdim (fun i => nth (off 5 + q * gdim * gdim + i)%nat c 0) (g_n g) (nth 0 c 0) (nth 1 c 0) (fun _ => 0).
  (** contact_kernels.cpp:159-169. *)
  Definition sign_u (c : list R) (g : geometry) (q : nat) : R := for_loop gdim (fun j acc => acc + sig_n_u c g q j * n_surf c q j) 0.
  Definition u_at (c : list R) (q j : nat) : R := nth (off 4 + gdim * q + j)%nat c 0.
  Definition u_opp (c : list R) (q j : nat) : R := nth (off 6 + q * bs + j)%nat c 0.
  Definition jump_un (c : list R) (q : nat) : R :=
    for_loop bs (fun j acc => acc + - u_opp c q j * n_surf c q j) (for_loop gdim (fun j acc => acc + u_at c q j * n_surf c q j) 0).

  (** contact_kernels.cpp:103-108; [fric], here [c[2]], is read at 427, 614, 845, 1044. *)
  Definition gamma_of (c w : list R) : R := nth 3 c 0 / nth 0 w 0.
  Definition gamma_inv_of (c w : list R) : R := nth 0 w 0 / nth 3 c 0.

  (** contact_kernels.cpp:63-197. *)
  Definition unbiased_rhs : kernel_fn := fun b c w coords f num_links qs =>
    let gamma := gamma_of c w in
    let gamma_inv := gamma_inv_of c w in
    let theta := nth 1 w 0 in
    let np := num_points kd f in
    quadrature_loop kd coords f junk qs (fun q g b =>
      let q_pos := (kd_qp_offsets kd f + q)%nat in
      let ns := n_surf c q in
      let sign_u := sign_u c g q in
      let w0 := weight kd f q * g_detJ g in
      let Pn_u := R_plus ((jump_un c q - normal_gap c q) - gamma * sign_u) * w0 in
      for_loop nd (fun i b =>
        for_loop bs (fun n b =>
          let v_dot_nsurf := ns n * kd_phi kd q_pos i in
          let sign_v := basis_sign c g f q i n in
          let Pn_v := v_dot_nsurf - gamma * theta * sign_v in
          let b := acc b 0 (n + i * bs) (0.5 * gamma_inv * Pn_u * Pn_v) in
          let b := acc b 0 (n + i * bs) (- (0.5 * theta * gamma * sign_u * sign_v * w0)) in
          for_loop num_links (fun k b =>
            let v_n_opp := nth (test_index kd (off 3) np q k i n) c 0 * ns n in
            acc b (k + 1) (n + i * bs) (- (0.5 * gamma_inv * v_n_opp * Pn_u))) b) b) b) b.

  (** contact_kernels.cpp:215-365. *)
  Definition unbiased_jac : kernel_fn := fun A c w coords f num_links qs =>
    let gamma := gamma_of c w in
    let gamma_inv := gamma_inv_of c w in
    let theta := nth 1 w 0 in
    let np := num_points kd f in
    quadrature_loop kd coords f junk qs (fun q g A =>
      let q_pos := (kd_qp_offsets kd f + q)%nat in
      let phi := kd_phi kd q_pos in
      let ns := n_surf c q in
      let Pn_u := dR_plus ((jump_un c q - normal_gap c q) - gamma * sign_u c g q) in
      let w0 := weight kd f q * g_detJ g in
      for_loop nd (fun j A =>
        for_loop bs (fun l A =>
          let sign_du := basis_sign c g f q j l in
          let Pn_du := (phi j * ns l - gamma * sign_du) * Pn_u * w0 in
          let sign_du := sign_du * w0 in
          for_loop nd (fun i A =>
            for_loop bs (fun b A =>
              let v_dot_nsurf := ns b * phi i in
              let sign_v := basis_sign c g f q i b in
              let Pn_v := v_dot_nsurf - gamma * theta * sign_v in
              let A := acc A 0 ((b + i * bs) * nd * bs + l + j * bs)
                         (0.5 * gamma_inv * Pn_du * Pn_v - 0.5 * theta * gamma * sign_du * sign_v) in
              for_loop num_links (fun k A =>
                let du_n_opp := nth (test_index kd (off 3) np q k j l) c 0 * ns l in
                let du_n_opp := du_n_opp * (w0 * Pn_u) in
                let v_n_opp := nth (test_index kd (off 3) np q k i b) c 0 * ns b in
                let A := acc A (3 * k + 1) ((b + i * bs) * bs * nd + l + j * bs) (- (0.5 * gamma_inv * du_n_opp * Pn_v)) in
                let A := acc A (3 * k + 2) ((b + i * bs) * bs * nd + l + j * bs) (- (0.5 * gamma_inv * Pn_du * v_n_opp)) in
                acc A (3 * k + 3) ((b + i * bs) * bs * nd + l + j * bs) (0.5 * gamma_inv * du_n_opp * v_n_opp)) A) A) A) A) A) A.

  (** ** Friction *)
  (** std::array<double, 3> filled up to [bs], zero beyond (contact_kernels.cpp:496-501). *)
  Definition array3 (x : nat -> R) : list R := map (fun j => if (j <? bs)%nat then x j else 0) (seq 0 3).
  (** contact_kernels.cpp:496-501, 676-681. *)
  Definition Pt_u_tresca (c w : list R) (g : geometry) (q : nat) : list R :=
    array3 (fun j => u_at c q j - u_opp c q j - jump_un c q * n_surf c q j - gamma_of c w * (sig_n_u c g q j - sign_u c g q * n_surf c q j)).
  (** contact_kernels.cpp:886-892, 1079-1085. *)
  Definition n_old (c : list R) (q i : nat) : R := - nth (off 7 + q * gdim + i)%nat c 0.
  (** contact_kernels.cpp:909-915, 1102-1108. *)
  Definition ndotn (c : list R) (q : nat) : R := for_loop gdim (fun j acc => acc + n_surf c q j * n_old c q j) 0.
  (** contact_kernels.cpp:920-931, 1113-1122. *)
  Definition v_rel (c : list R) (q j : nat) : R :=
    u_at c q j - u_opp c q j - jump_un c q * n_surf c q j - (normal_gap c q - jump_un c q) * (n_old c q j - ndotn c q * n_surf c q j).
  Definition Pt_u_coulomb (c w : list R) (g : geometry) (q : nat) : list R :=
    array3 (fun j => v_rel c q j - gamma_of c w * (sig_n_u c g q j - sign_u c g q * n_surf c q j)).
  (** contact_kernels.cpp:933, 1124. *)
  Definition Pn_u_coulomb (c w : list R) (g : geometry) (q : nat) : R := R_plus ((jump_un c q - normal_gap c q) - gamma_of c w * sign_u c g q).

  (** contact_kernels.cpp:481-482, 662-663, 903-904, 1096-1097: compute_sigma_n_basis. *)
  Definition sig_n (c : list R) (g : geometry) (f q : nat) : nat -> nat -> nat -> R :=
    sigma_n_basis kd (g_K g) (g_n g) (nth 0 c 0) (nth 1 c 0) (kd_qp_offsets kd f + q)%nat.

  (** The element loops of tresca_rhs (507-548) and coulomb_rhs (934-978) are the
      same statements; [proj] is Pt_u_proj (contact_kernels.cpp:504-548, 934-978). *)
  Definition friction_rhs_point (c w : list R) (f num_links q : nat) (g : geometry) (proj : list R) (b : list (list R)) : list (list R) :=
    let gamma := gamma_of c w in
    let gamma_inv := gamma_inv_of c w in
    let theta := nth 1 w 0 in
    let np := num_points kd f in
    let phi := kd_phi kd (kd_qp_offsets kd f + q)%nat in
    let ns := n_surf c q in
    let w0 := weight kd f q * g_detJ g in
    for_loop nd (fun i b =>
      for_loop bs (fun n b =>
        let v_dot_nsurf := ns n * phi i in
        let sign_v := basis_sign c g f q i n in
        let b := acc b 0 (n + i * bs) (0.5 * gamma_inv * nth n proj 0 * phi i * w0) in
        let b := for_loop bs (fun j b =>
          let Pt_vj := - v_dot_nsurf * ns j - theta * gamma * (sig_n c g f q i n j - sign_v * ns j) in
          acc b 0 (n + i * bs) (0.5 * gamma_inv * nth j proj 0 * Pt_vj * w0
             - 0.5 * w0 * gamma * theta * (sig_n_u c g q j - sign_u c g q * ns j) * (sig_n c g f q i n j - sign_v * ns j))) b in
        for_loop num_links (fun k b =>
          let v := nth (test_index kd (off 3) np q k i n) c 0 in
          let v_n_opp := v * ns n in
          let b := acc b (k + 1) (n + i * bs) (- (0.5 * gamma_inv * nth n proj 0 * v * w0)) in
          for_loop bs (fun j b => acc b (k + 1) (n + i * bs) (0.5 * gamma_inv * nth j proj 0 * v_n_opp * ns j * w0)) b) b) b) b.

  (** contact_kernels.cpp:381-550. *)
  Definition tresca_rhs : kernel_fn := fun b c w coords f num_links qs =>
    quadrature_loop kd coords f junk qs (fun q g b =>
      let Pt_u_proj := ball_projection (Pt_u_tresca c w g q) (gamma_of c w * nth 2 c 0) in
      friction_rhs_point c w f num_links q g Pt_u_proj b) b.

  (** contact_kernels.cpp:799-980. *)
  Definition coulomb_rhs : kernel_fn := fun b c w coords f num_links qs =>
    quadrature_loop kd coords f junk qs (fun q g b =>
      let Pt_u_proj := ball_projection (Pt_u_coulomb c w g q) (nth 2 c 0 * Pn_u_coulomb c w g q) in
      friction_rhs_point c w f num_links q g Pt_u_proj b) b.

  (** contact_kernels.cpp:568-783. *)
  Definition tresca_jac : kernel_fn := fun A c w coords f num_links qs =>
    let gamma := gamma_of c w in
    let gamma_inv := gamma_inv_of c w in
    let theta := nth 1 w 0 in
    let np := num_points kd f in
    quadrature_loop kd coords f junk qs (fun q g A =>
      let phi := kd_phi kd (kd_qp_offsets kd f + q)%nat in
      let ns := n_surf c q in
      let sig_n := sig_n c g f q in
      let proj := d_ball_projection (Pt_u_tresca c w g q) (gamma * nth 2 c 0) bs in
      let w0 := weight kd f q * g_detJ g in
      for_loop nd (fun j A =>
        for_loop bs (fun l A =>
          let w_dot_nsurf := ns l * phi j in
          let sign_w := basis_sign c g f q j l in
          let Pt_w m := for_loop bs (fun n acc =>
              acc - nth (n * bs + m) proj 0 * (w_dot_nsurf * ns n + gamma * (sig_n j l n - sign_w * ns n)))
            (0 + nth (l * bs + m) proj 0 * phi j) in
          for_loop nd (fun i A =>
            for_loop bs (fun b A =>
              let v_dot_nsurf := ns b * phi i in
              let sign_v := basis_sign c g f q i b in
              let A := acc A 0 ((b + i * bs) * nd * bs + l + j * bs) (0.5 * gamma_inv * Pt_w b * phi i * w0) in
              let A := for_loop bs (fun n A =>
                let Pt_vn := - v_dot_nsurf * ns n - theta * gamma * (sig_n i b n - sign_v * ns n) in
                acc A 0 ((b + i * bs) * nd * bs + l + j * bs) (0.5 * gamma_inv * Pt_w n * Pt_vn * w0
                   - 0.5 * gamma * theta * w0 * (sig_n i b n - sign_v * ns n) * (sig_n j l n - sign_w * ns n))) A in
              for_loop num_links (fun k A =>
                let cw := nth (test_index kd (off 3) np q k j l) c 0 in
                let wn_opp := cw * ns l in
                let Pt_w_opp m := for_loop bs (fun n acc => acc - nth (n * bs + m) proj 0 * wn_opp * ns n)
                  (0 + nth (l * bs + m) proj 0 * cw) in
                let cv := nth (test_index kd (off 3) np q k i b) c 0 in
                let v_n_opp := cv * ns b in
                let A := acc A (3 * k + 1) ((b + i * bs) * bs * nd + l + j * bs) (- (0.5 * gamma_inv * Pt_w_opp b * phi i * w0)) in
                let A := acc A (3 * k + 2) ((b + i * bs) * bs * nd + l + j * bs) (- (0.5 * gamma_inv * Pt_w b * cv * w0)) in
                let A := acc A (3 * k + 3) ((b + i * bs) * bs * nd + l + j * bs) (0.5 * gamma_inv * Pt_w_opp b * cv * w0) in
                for_loop bs (fun n A =>
                  let Pt_vn := - v_dot_nsurf * ns n - theta * gamma * (sig_n i b n - sign_v * ns n) in
                  let A := acc A (3 * k + 1) ((b + i * bs) * bs * nd + l + j * bs) (- (0.5 * gamma_inv * Pt_w_opp n * Pt_vn * w0)) in
                  let A := acc A (3 * k + 2) ((b + i * bs) * bs * nd + l + j * bs) (0.5 * gamma_inv * Pt_w n * ns n * v_n_opp * w0) in
                  (* no [w0] here: 770-771 *)
                  acc A (3 * k + 3) ((b + i * bs) * bs * nd + l + j * bs) (- (0.5 * gamma_inv * Pt_w_opp n * ns n * v_n_opp))) A) A) A) A) A) A) A.

  (** contact_kernels.cpp:998-1264. *)
  Definition coulomb_jac : kernel_fn := fun A c w coords f num_links qs =>
    let gamma := gamma_of c w in
    let gamma_inv := gamma_inv_of c w in
    let theta := nth 1 w 0 in
    let fric := nth 2 c 0 in
    let np := num_points kd f in
    quadrature_loop kd coords f junk qs (fun q g A =>
      let phi := kd_phi kd (kd_qp_offsets kd f + q)%nat in
      let ns := n_surf c q in
      let no := n_old c q in
      let ndotn := ndotn c q in
      let sig_n := sig_n c g f q in
      let Pt_u := Pt_u_coulomb c w g q in
      let Pn_u := Pn_u_coulomb c w g q in
      let proj := d_ball_projection Pt_u (fric * Pn_u) bs in
      let d_alpha := dR_plus ((jump_un c q - normal_gap c q) - gamma * sign_u c g q) * fric in
      let d_alpha_ball := d_alpha_ball_projection Pt_u (fric * Pn_u) d_alpha in
      let w0 := weight kd f q * g_detJ g in
      for_loop nd (fun j A =>
        for_loop bs (fun l A =>
          let w_dot_nsurf := ns l * phi j in
          let sign_w := basis_sign c g f q j l in
          let Pt_w m := for_loop bs (fun n acc =>
              acc - nth (n * bs + m) proj 0 * (w_dot_nsurf * (ns n - no n + ndotn * ns n) + gamma * (sig_n j l n - sign_w * ns n)))
            (0 + nth (l * bs + m) proj 0 * phi j) in
          let Pn_w := phi j * ns l - gamma * sign_w in
          for_loop nd (fun i A =>
            for_loop bs (fun b A =>
              let v_dot_nsurf := ns b * phi i in
              let sign_v := basis_sign c g f q i b in
              let A := acc A 0 ((b + i * bs) * nd * bs + l + j * bs) (0.5 * gamma_inv * Pt_w b * phi i * w0) in
              let A := acc A 0 ((b + i * bs) * nd * bs + l + j * bs) (0.5 * gamma_inv * nth b d_alpha_ball 0 * Pn_w * phi i * w0) in
              let A := for_loop bs (fun n A =>
                let Pt_vn := - v_dot_nsurf * ns n - theta * gamma * (sig_n i b n - sign_v * ns n) in
                let A := acc A 0 ((b + i * bs) * nd * bs + l + j * bs) (0.5 * gamma_inv * Pt_w n * Pt_vn * w0) in
                acc A 0 ((b + i * bs) * nd * bs + l + j * bs) (0.5 * gamma_inv * nth n d_alpha_ball 0 * Pn_w * Pt_vn * w0
                   - 0.5 * gamma * theta * w0 * (sig_n i b n - sign_v * ns n) * (sig_n j l n - sign_w * ns n))) A in
              for_loop num_links (fun k A =>
                let cw := nth (test_index kd (off 3) np q k j l) c 0 in
                let wn_opp := cw * ns l in
                let Pt_w_opp m := for_loop bs (fun n acc => acc - nth (n * bs + m) proj 0 * (ns n - no n + ndotn * ns n) * wn_opp)
                  (0 + nth (l * bs + m) proj 0 * cw) in
                let cv := nth (test_index kd (off 3) np q k i b) c 0 in
                let v_n_opp := cv * ns b in
                let A := acc A (3 * k + 1) ((b + i * bs) * bs * nd + l + j * bs) (- (0.5 * gamma_inv * Pt_w_opp b * phi i * w0)) in
                let A := acc A (3 * k + 1) ((b + i * bs) * bs * nd + l + j * bs) (- (0.5 * gamma_inv * nth b d_alpha_ball 0 * wn_opp * phi i * w0)) in
                let A := acc A (3 * k + 2) ((b + i * bs) * bs * nd + l + j * bs) (- (0.5 * gamma_inv * Pt_w b * cv * w0)) in
                let A := acc A (3 * k + 2) ((b + i * bs) * bs * nd + l + j * bs) (- (0.5 * gamma_inv * nth b d_alpha_ball 0 * Pn_w * cv * w0)) in
                let A := acc A (3 * k + 3) ((b + i * bs) * bs * nd + l + j * bs) (0.5 * gamma_inv * Pt_w_opp b * cv * w0) in
                let A := acc A (3 * k + 3) ((b + i * bs) * bs * nd + l + j * bs) (0.5 * gamma_inv * nth b d_alpha_ball 0 * wn_opp * cv * w0) in
                for_loop bs (fun n A =>
                  let Pt_vn := - v_dot_nsurf * ns n - theta * gamma * (sig_n i b n - sign_v * ns n) in
                  let A := acc A (3 * k + 1) ((b + i * bs) * bs * nd + l + j * bs) (- (0.5 * gamma_inv * Pt_w_opp n * Pt_vn * w0)) in
                  let A := acc A (3 * k + 1) ((b + i * bs) * bs * nd + l + j * bs) (- (0.5 * gamma_inv * nth n d_alpha_ball 0 * wn_opp * Pt_vn * w0)) in
                  let A := acc A (3 * k + 2) ((b + i * bs) * bs * nd + l + j * bs) (0.5 * gamma_inv * Pt_w n * ns n * v_n_opp * w0) in
                  let A := acc A (3 * k + 2) ((b + i * bs) * bs * nd + l + j * bs) (0.5 * gamma_inv * nth n d_alpha_ball 0 * Pn_w * ns n * v_n_opp * w0) in
                  (* no [w0] in these two: 1248-1254 *)
                  let A := acc A (3 * k + 3) ((b + i * bs) * bs * nd + l + j * bs) (- (0.5 * gamma_inv * Pt_w_opp n * ns n * v_n_opp)) in
                  acc A (3 * k + 3) ((b + i * bs) * bs * nd + l + j * bs) (- (0.5 * gamma_inv * nth n d_alpha_ball 0 * wn_opp * ns n * v_n_opp))) A) A) A) A) A) A) A.
End Kernels.

(** contact_kernels.cpp:36-44: sizes of the blocks of a coefficient row. *)
Definition contact_cstrides (np gdim nd bs max_links : nat) : list nat :=
  [4; np * gdim; np * gdim; np * nd * bs * max_links; np * gdim; np * gdim * gdim; np * bs; np * gdim]%nat.

(** contact_kernels.cpp:1266-1282; [None] is std::invalid_argument. *)
Definition generate_contact_kernel (type : kernel_type) (kd : kernel_data) (junk : geometry) : option kernel_fn :=
  match type with
  | Rhs => Some (unbiased_rhs kd junk)
  | Jac => Some (unbiased_jac kd junk)
  | TrescaRhs => Some (tresca_rhs kd junk)
  | TrescaJac => Some (tresca_jac kd junk)
  | CoulombRhs => Some (coulomb_rhs kd junk)
  | CoulombJac => Some (coulomb_jac kd junk)
  | _ => None
  end.
