(** Model of meshtie_kernels.cpp: Nitsche mesh tie for elasticity and Poisson. *)
From Coq Require Import List Arith Reals.
Import ListNotations.
From Verif Require Import Prelude RSum RayModel AssemblyModel KernelModel.
Local Open Scope R_scope.

Section Kernels.
  Context (kd : kernel_data) (junk : geometry).
  Notation gdim := (kd_gdim kd).
  Notation tdim := (kd_tdim kd).
  Notation bs := (kd_bs kd).
  Notation nd := (kd_ndofs kd).
  Notation off := (offsets kd).

  (** Position of a packed test function of the other side (meshtie_kernels.cpp:580-587). *)
  Definition test_index (start np : nat) (q k i n : nat) : nat := (start + k * np * nd * bs + i * np * bs + q * bs + n)%nat.

  (** meshtie_kernels.cpp:38-168. *)
  Definition meshtie_rhs : kernel_fn := fun b c w coords f num_links qs =>
    let gamma := nth 0 w 0 / nth 2 c 0 in
    let theta := nth 1 w 0 in
    let mu := nth 0 c 0 in
    let lmbda := nth 1 c 0 in
    let np := num_points kd f in
    quadrature_loop kd coords f junk qs (fun q g b =>
      let q_pos := (kd_qp_offsets kd f + q)%nat in
      let n_phys := g_n g in
      let sig_n := sigma_n_basis kd (g_K g) n_phys mu lmbda q_pos in
      let sig_n_opp := sigma_n_opp gdim nd np (fun i => nth (off 2 + i)%nat c 0) n_phys mu lmbda q in
      let sig_n_u := sigma_n_u gdim (fun i => nth (off 4 + q * gdim * gdim + i)%nat c 0) n_phys mu lmbda (fun _ => 0) in
      let sig_n_u := sigma_n_u gdim (fun i => nth (off 6 + q * gdim * gdim + i)%nat c 0) n_phys mu lmbda sig_n_u in
      let jump_u j := nth (off 3 + q * bs + j)%nat c 0 - nth (off 5 + q * bs + j)%nat c 0 in
      let w0 := 0.5 * weight kd f q * g_detJ g in
      for_loop nd (fun i b =>
        for_loop bs (fun n b =>
          let b := acc b 0 (n + i * bs) ((- 0.5 * sig_n_u n + gamma * jump_u n) * kd_phi kd q_pos i * w0) in
          let b := for_loop gdim (fun a b => acc b 0 (n + i * bs) (- 0.5 * theta * sig_n i n a * jump_u a * w0)) b in
          for_loop num_links (fun k b =>
            let index := test_index (off 1) np q k i n in
            let b := acc b (k + 1) (n + i * bs) ((0.5 * sig_n_u n - gamma * jump_u n) * nth index c 0 * w0) in
            for_loop gdim (fun a b => acc b (k + 1) (n + i * bs) (- 0.5 * theta * sig_n_opp k i n a * jump_u a * w0)) b) b) b) b) b.

  (** meshtie_kernels.cpp:181-269. *)
  Definition meshtie_thermo_elastic : kernel_fn := fun b c w coords f num_links qs =>
    let mu := nth 0 c 0 in
    let lmbda := nth 1 c 0 in
    let alpha := nth 3 c 0 * (3 * lmbda + 2 * mu) in
    let np := num_points kd f in
    quadrature_loop kd coords f junk qs (fun q g b =>
      let q_pos := (kd_qp_offsets kd f + q)%nat in
      let w0 := 0.5 * weight kd f q * g_detJ g in
      let avg_T := 0.5 * (nth (off 7 + q)%nat c 0 + nth (off 8 + q)%nat c 0) in
      for_loop nd (fun i b =>
        for_loop bs (fun n b =>
          let b := acc b 0 (n + i * bs) (alpha * avg_T * g_n g n * kd_phi kd q_pos i * w0) in
          for_loop num_links (fun k b =>
            let index := test_index (off 1) np q k i n in
            acc b (k + 1) (n + i * bs) (- (alpha * avg_T * g_n g n * nth index c 0 * w0))) b) b) b) b.

  (** meshtie_kernels.cpp:283-434. *)
  Definition meshtie_jac : kernel_fn := fun A c w coords f num_links qs =>
    let gamma := nth 0 w 0 / nth 2 c 0 in
    let theta := nth 1 w 0 in
    let mu := nth 0 c 0 in
    let lmbda := nth 1 c 0 in
    let np := num_points kd f in
    quadrature_loop kd coords f junk qs (fun q g A =>
      let q_pos := (kd_qp_offsets kd f + q)%nat in
      let phi := kd_phi kd q_pos in
      let n_phys := g_n g in
      let sig_n := sigma_n_basis kd (g_K g) n_phys mu lmbda q_pos in
      let sig_n_opp := sigma_n_opp gdim nd np (fun i => nth (off 2 + i)%nat c 0) n_phys mu lmbda q in
      let w0 := 0.5 * weight kd f q * g_detJ g in
      for_loop nd (fun j A =>
        for_loop bs (fun l A =>
          for_loop nd (fun i A =>
            let A := acc A 0 ((l + i * bs) * nd * bs + l + j * bs) (gamma * phi j * phi i * w0) in
            let A := for_loop num_links (fun k A =>
              let c_u := nth (test_index (off 1) np q k j l) c 0 in
              let c_v := nth (test_index (off 1) np q k i l) c 0 in
              let A := acc A (3 * k + 1) ((l + i * bs) * bs * nd + l + j * bs) (- gamma * c_u * phi i * w0) in
              let A := acc A (3 * k + 2) ((l + i * bs) * bs * nd + l + j * bs) (- gamma * phi j * c_v * w0) in
              acc A (3 * k + 3) ((l + i * bs) * bs * nd + l + j * bs) (gamma * c_u * c_v * w0)) A in
            for_loop bs (fun b A =>
              let A := acc A 0 ((b + i * bs) * nd * bs + l + j * bs)
                         ((- 0.5 * sig_n j l b * phi i - 0.5 * theta * sig_n i b l * phi j) * w0) in
              for_loop num_links (fun k A =>
                let c_u := nth (test_index (off 1) np q k j l) c 0 in
                let c_v := nth (test_index (off 1) np q k i b) c 0 in
                let A := acc A (3 * k + 1) ((b + i * bs) * bs * nd + l + j * bs)
                           ((- 0.5 * sig_n_opp k j l b * phi i + 0.5 * theta * sig_n i b l * c_u) * w0) in
                let A := acc A (3 * k + 2) ((b + i * bs) * bs * nd + l + j * bs)
                           ((0.5 * sig_n j l b * c_v - 0.5 * theta * sig_n_opp k i b l * phi j) * w0) in
                acc A (3 * k + 3) ((b + i * bs) * bs * nd + l + j * bs)
                  ((0.5 * sig_n_opp k j l b * c_v + 0.5 * theta * sig_n_opp k i b l * c_u) * w0)) A) A) A) A) A) A.

  (** meshtie_kernels.cpp:566-570 and others: [inner(grad(v), n_phys)]. *)
  Definition basis_normal_derivative (g : geometry) (q_pos i : nat) : R :=
    for_loop gdim (fun j acc => for_loop tdim (fun k acc => acc + g_K g k j * kd_dphi kd k q_pos i * g_n g j) acc) 0.

  (** meshtie_kernels.cpp:481-597; the space has block size 1. *)
  Definition poisson_rhs : kernel_fn := fun b c w coords f num_links qs =>
    let gamma := nth 0 w 0 / nth 0 c 0 in
    let theta := nth 1 w 0 in
    let kdt := nth 1 c 0 in
    let np := num_points kd f in
    quadrature_loop kd coords f junk qs (fun q g b =>
      let q_pos := (kd_qp_offsets kd f + q)%nat in
      let n_phys := g_n g in
      let jump_T := nth (off 3 + q)%nat c 0 - nth (off 5 + q)%nat c 0 in
      let avg_grad_T_n := for_loop gdim (fun j acc =>
          acc + 0.5 * (nth (off 4 + q * gdim + j)%nat c 0 + nth (off 6 + q * gdim + j)%nat c 0) * n_phys j) 0 in
      let w0 := 0.5 * weight kd f q * g_detJ g * kdt in
      for_loop nd (fun i b =>
        let grad_v_n := basis_normal_derivative g q_pos i in
        let b := acc b 0 i ((- avg_grad_T_n + gamma * jump_T) * kd_phi kd q_pos i * w0 - theta * 0.5 * grad_v_n * jump_T * w0) in
        for_loop num_links (fun k b =>
          let index := (off 1 + k * np * nd + i * np + q)%nat in
          let b := acc b (k + 1) i ((avg_grad_T_n - gamma * jump_T) * nth index c 0 * w0) in
          let index := (off 2 + k * np * nd * gdim + i * gdim * np + q * gdim)%nat in
          for_loop gdim (fun a b => acc b (k + 1) i (- 0.5 * theta * nth (index + a)%nat c 0 * n_phys a * jump_T * w0)) b) b) b) b.

  (** meshtie_kernels.cpp:611-746. *)
  Definition poisson_jac : kernel_fn := fun A c w coords f num_links qs =>
    let gamma := nth 0 w 0 / nth 0 c 0 in
    let theta := nth 1 w 0 in
    let kdt := nth 1 c 0 in
    let np := num_points kd f in
    quadrature_loop kd coords f junk qs (fun q g A =>
      let q_pos := (kd_qp_offsets kd f + q)%nat in
      let phi := kd_phi kd q_pos in
      let n_phys := g_n g in
      let w0 := 0.5 * weight kd f q * g_detJ g * kdt in
      for_loop nd (fun j A =>
        let grad_w_n := basis_normal_derivative g q_pos j in
        for_loop nd (fun i A =>
          let grad_v_n := basis_normal_derivative g q_pos i in
          let A := acc A 0 (i * nd + j) ((- 0.5 * grad_w_n + gamma * phi j) * phi i * w0 - theta * 0.5 * grad_v_n * phi j * w0) in
          for_loop num_links (fun k A =>
            let c_w := nth (off 1 + k * np * nd + j * np + q)%nat c 0 in
            let c_v := nth (off 1 + k * np * nd + i * np + q)%nat c 0 in
            let A := acc A (3 * k + 1) (i * nd + j) ((- gamma * phi i + theta * 0.5 * grad_v_n) * c_w * w0) in
            let A := acc A (3 * k + 2) (i * nd + j) ((0.5 * grad_w_n - gamma * phi j) * c_v * w0) in
            let A := acc A (3 * k + 3) (i * nd + j) (gamma * c_w * c_v * w0) in
            let index_w_grad := (off 2 + k * np * nd * gdim + j * gdim * np + q * gdim)%nat in
            let index_v_grad := (off 2 + k * np * nd * gdim + i * gdim * np + q * gdim)%nat in
            for_loop gdim (fun a A =>
              let A := acc A (3 * k + 1) (i * nd + j) (- 0.5 * nth (index_w_grad + a)%nat c 0 * n_phys a * phi i * w0) in
              let A := acc A (3 * k + 2) (i * nd + j) (- theta * 0.5 * nth (index_v_grad + a)%nat c 0 * n_phys a * phi j * w0) in
              acc A (3 * k + 3) (i * nd + j)
                (0.5 * nth (index_w_grad + a)%nat c 0 * n_phys a * c_v * w0
                 + theta * 0.5 * nth (index_v_grad + a)%nat c 0 * n_phys a * c_w * w0)) A) A) A) A) A.
End Kernels.

(** meshtie_kernels.cpp:10-35, 436-447: check_cell_type and KernelData throw
    before; [None] is std::invalid_argument. *)
Definition generate_meshtie_kernel (type : kernel_type) (kd : kernel_data) (junk : geometry) : option kernel_fn :=
  match type with
  | MeshTieRhs => Some (meshtie_rhs kd junk)
  | MeshTieJac => Some (meshtie_jac kd junk)
  | ThermoElasticRhs => Some (meshtie_thermo_elastic kd junk)
  | _ => None
  end.
(** meshtie_kernels.cpp:450-478, 748-757. *)
Definition generate_poisson_kernel (type : kernel_type) (kd : kernel_data) (junk : geometry) : option kernel_fn :=
  if negb (kd_bs kd =? 1)%nat then None
  else match type with
  | MeshTieRhs => Some (poisson_rhs kd junk)
  | MeshTieJac => Some (poisson_jac kd junk)
  | _ => None
  end.
