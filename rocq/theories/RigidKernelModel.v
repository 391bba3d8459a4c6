(** Model of rigid_surface_kernels.cpp: Nitsche contact of a deformable body with
    a rigid surface. *)
From Coq Require Import List Arith Reals.
Import ListNotations.
From Verif Require Import Prelude RSum RayModel OpsModel AssemblyModel KernelModel.
Local Open Scope R_scope.

Section Kernels.
  Context (kd : kernel_data) (junk : geometry) (constant_normal : bool).
  Notation gdim := (kd_gdim kd).
  Notation bs := (kd_bs kd).
  Notation nd := (kd_ndofs kd).
  Notation off := (offsets kd).

  (** ** Quantities at a quadrature point
      Both kernels compute them in the same way; the lines are those of
      nitsche_rigid_rhs. *)
  (** rigid_surface_kernels.cpp:108-122 and 156-169: from the constants [w] or from the packed normals. *)
  Definition rigid_n_surf (c w : list R) (q i : nat) : R :=
    if constant_normal then - nth (i + 2)%nat w 0 else - nth (off 6 + q * gdim + i)%nat c 0.
  (** [n_dot] is computed before the quadrature loop if the normal is constant,
      from the [n_phys] of that time ([g0]), otherwise at every point (rigid_surface_kernels.cpp:108-122, 156-169). *)
  Definition rigid_n_dot (g0 g : geometry) (c w : list R) (q : nat) : R :=
    for_loop gdim (fun i acc => acc + g_n (if constant_normal then g0 else g) i * rigid_n_surf c w q i) 0.
  (** rigid_surface_kernels.cpp:171-174. *)
  Definition rigid_gap (c w : list R) (q : nat) : R := for_loop gdim (fun i acc => acc + nth (off 3 + q * gdim + i)%nat c 0 * rigid_n_surf c w q i) 0.
  (** rigid_surface_kernels.cpp:176-177 and 202: [lmbda * tr(j, l) * n_dot + mu * epsn(j, l)]. *)
  Definition rigid_basis_sign (g0 g : geometry) (c w : list R) (f q j l : nat) : R :=
    let q_pos := (kd_qp_offsets kd f + q)%nat in
    nth 1 c 0 * strain_trace kd (g_K g) q_pos j l * rigid_n_dot g0 g c w q + nth 0 c 0 * normal_strain kd (g_K g) (rigid_n_surf c w q) (g_n g) q_pos j l.
  (** rigid_surface_kernels.cpp:179-192. *)
  Definition rigid_sig_n_u (g : geometry) (c : list R) (q : nat) : nat -> R :=
    sigma_n_u gdim (fun i => nth (off 5 + q * gdim * gdim + i)%nat c 0) (g_n g) (nth 0 c 0) (nth 1 c 0) (fun _ => 0).
  Definition rigid_sign_u (g : geometry) (c w : list R) (q : nat) : R := for_loop gdim (fun j acc => acc + rigid_sig_n_u g c q j * rigid_n_surf c w q j) 0.
  Definition rigid_u_n (c w : list R) (q : nat) : R := for_loop gdim (fun j acc => acc + nth (off 4 + gdim * q + j)%nat c 0 * rigid_n_surf c w q j) 0.

  (** rigid_surface_kernels.cpp:68-210.  The loop runs over all points of the
      facet; [detJ] is [fabs] of a non-negative number, so overwriting it with its
      absolute value does not change the next point's. *)
  Definition rigid_rhs : kernel_fn := fun b c w coords f _ _ =>
    let g0 := start_geometry kd coords f junk in
    let gamma := nth 0 w 0 / nth 2 c 0 in
    let gamma_inv := nth 2 c 0 / nth 0 w 0 in
    let theta := nth 1 w 0 in
    quadrature_loop kd coords f junk (seq 0 (num_points kd f)) (fun q g b =>
      let q_pos := (kd_qp_offsets kd f + q)%nat in
      let detJ := Rabs (g_detJ g) in
      let gap := rigid_gap c w q in
      let sign_u := rigid_sign_u g c w q in
      let R_minus_scaled := R_minus (gamma_inv * sign_u + (gap - rigid_u_n c w q)) * detJ * weight kd f q in
      let sign_u := sign_u * (detJ * weight kd f q) in
      for_loop nd (fun j b =>
        for_loop bs (fun l b =>
          let sign_v := rigid_basis_sign g0 g c w f q j l in
          let v_dot_nsurf := rigid_n_surf c w q l * kd_phi kd q_pos j in
          acc b 0 (j * bs + l) (- theta * gamma_inv * sign_v * sign_u + R_minus_scaled * (theta * sign_v - gamma * v_dot_nsurf))) b) b) b.

  (** rigid_surface_kernels.cpp:230-382. *)
  Definition rigid_jac : kernel_fn := fun A c w coords f _ _ =>
    let g0 := start_geometry kd coords f junk in
    let gamma := nth 0 w 0 / nth 2 c 0 in
    let gamma_inv := nth 2 c 0 / nth 0 w 0 in
    let theta := nth 1 w 0 in
    quadrature_loop kd coords f junk (seq 0 (num_points kd f)) (fun q g A =>
      let q_pos := (kd_qp_offsets kd f + q)%nat in
      let detJ := Rabs (g_detJ g) in
      let gap := rigid_gap c w q in
      let Pn_u := dR_minus (rigid_sign_u g c w q + gamma * (gap - rigid_u_n c w q)) in
      let w0 := weight kd f q * detJ in
      for_loop nd (fun j A =>
        for_loop bs (fun l A =>
          let sign_du := rigid_basis_sign g0 g c w f q j l in
          let Pn_du := (gamma_inv * sign_du - rigid_n_surf c w q l * kd_phi kd q_pos j) * Pn_u * w0 in
          let sign_du := sign_du * w0 in
          for_loop nd (fun i A =>
            for_loop bs (fun b A =>
              let v_dot_nsurf := rigid_n_surf c w q b * kd_phi kd q_pos i in
              let sign_v := rigid_basis_sign g0 g c w f q i b in
              acc A 0 ((b + i * bs) * nd * bs + l + j * bs)
                (- theta * gamma_inv * sign_du * sign_v + Pn_du * (theta * sign_v - gamma * v_dot_nsurf))) A) A) A) A) A.
End Kernels.

(** rigid_surface_kernels.cpp:384-392; [None] is std::invalid_argument. *)
Definition generate_rigid_surface_kernel (type : kernel_type) (kd : kernel_data) (junk : geometry) (constant_normal : bool) : option kernel_fn :=
  match type with
  | Rhs => Some (rigid_rhs kd junk constant_normal)
  | Jac => Some (rigid_jac kd junk constant_normal)
  | _ => None
  end.
