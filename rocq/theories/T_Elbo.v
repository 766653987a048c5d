(* Property theorems C103 and C104: the bounds of the variational models, any likelihood, and
   the effect of more inducing points.

   Vocabulary: S_IW.v ([expectation M finite E]: E is the expectation over M interchangeable
   draws); S_Expect.v ([moments]: mean and covariance of a random vector; [ve_contract]: the
   variational expectations of the likelihood give the expected log_prob from the mean and
   the variances of f); S_Kernel.v ([markov_kernel], [increasing]); S_SSM.v ([has_law]).
   C46_weight_formula gives the weight exp lw as p(y | s) p(u) / q(u). *)
From Coq Require Import Reals.
From mathcomp Require Import all_ssreflect all_algebra.
From Verif Require Import RealStruct Nat Lin M_Block M_SSM S_SSM P_SSM M_SSMLog M_Kernel S_Kernel M_Cond M_Emission M_Sort M_Models
  M_Comb S_Comb M_KernelR S_KernelR P_Models3 P_SSMLog M_IW S_IW S_Expect P_Expect S_Gauss S_GP P_Grow.
Set Implicit Arguments.
Unset Strict Implicit.
Unset Printing Implicit Defensive.
Import GRing.Theory Num.Theory Order.TTheory.
Local Open Scope ring_scope.

(* A draw is noise eps of mean 0 and covariance 1.  From it u is a sample of q at the inducing
   points z and s the pathwise samples at the N data points X, which lie between inducing
   points; tau is the grid of data and inducing points together.  The bound e of the sparse
   model is the expected log weight of one draw; the expected importance weighted bound of
   K draws lies between e and the log of the expected weight. *)
Theorem C103_sparse_bound o d (ker : sde_kernel Rr d) (emission : R -> 'M[R]_(o, d)) (mean : R -> 'cV[R]_o) n (z : nat -> R)
    (q : ssm Rr d) m V M (finite : ((nat -> (nat -> 'cV[R]_d)) -> R) -> Prop) (E : ((nat -> (nat -> 'cV[R]_d)) -> R) -> R)
    (log_prob : 'cV[R]_o -> 'cV[R]_o -> R) (ve : 'cV[R]_o -> 'cV[R]_o -> 'cV[R]_o -> R)
    nt (tau : nat -> R) (pos_z pos_t : nat -> nat) joint N (Y : nat -> 'cV[R]_o) :
  markov_kernel ker -> k_mean0 ker = 0 -> increasing (F := Rr) n.+1 z ->
  ssm_nonsing n q -> has_law n.+1 n.+1 (ssm_path q) m V ->
  increasing (F := Rr) nt.+1 tau ->
  (forall j, (j < n.+1)%N -> (pos_z j < nt.+1)%N /\ tau (pos_z j) = z j) ->
  (forall i, (i < N)%N -> (pos_t i < nt.+1)%N /\ exists k, [/\ (k < n)%N, z k < tau (pos_t i) & tau (pos_t i) < z k.+1]) ->
  kernel_ssm nt ker tau = Some joint ->
  expectation M finite E -> moments finite E (fun x => flat (nt.+1 + n.+1) (x 0%N)) 0 1%:M ->
  let X i := tau (pos_t i) in
  let u (eps : nat -> 'cV[R]_d) := ssm_sample n q (fun l => eps (nt.+1 + l)%N) in
  let s eps i := sample_state ker n z (X i) (ssm_sample nt joint eps (pos_t i)) (fun j => ssm_sample nt joint eps (pos_z j)) (u eps) in
  (forall i, (i < N)%N -> ve_contract finite E (fun x => emission (X i) *m s (x 0%N) i + mean (X i)) (Y i) log_prob ve) ->
  exists e lw,
  [/\ svgp_elbo ker emission mean ve n z None N X Y q = Some e,
      forall eps, log_importance_weight ker emission mean log_prob n z q N X Y (s eps) (u eps) = Some (lw eps),
      finite (fun x => lw (x 0%N)) /\ E (fun x => lw (x 0%N)) = e &
      let L K (x : nat -> nat -> 'cV[R]_d) := iw_elbo K (fun k => lw (x k)) in
      let w (x : nat -> nat -> 'cV[R]_d) := exp (lw (x 0%N)) in
      finite w -> (forall K, (0 < K <= M)%N -> finite (L K)) ->
      forall K, (0 < K <= M)%N -> e <= E (L K) /\ E (L K) <= ln (E w)].
Proof. exact (fun H1 H2 H3 H4 H5 a b c f H6 => @sparse_any o d ker emission mean H1 H2 n z H3 q m V H4 H5 M finite E H6 log_prob ve nt tau pos_z pos_t joint N Y a b c f). Qed.
Print Assumptions C103_sparse_bound.

(* the same for the model whose variational distribution is at the data points z *)
Theorem C103_dense_bound o d (ker : sde_kernel Rr d) (emission : R -> 'M[R]_(o, d)) (mean : R -> 'cV[R]_o) n (z : nat -> R)
    (q : ssm Rr d) m V M (finite : ((nat -> (nat -> 'cV[R]_d)) -> R) -> Prop) (E : ((nat -> (nat -> 'cV[R]_d)) -> R) -> R)
    (log_prob : 'cV[R]_o -> 'cV[R]_o -> R) (ve : 'cV[R]_o -> 'cV[R]_o -> 'cV[R]_o -> R) (Y : nat -> 'cV[R]_o) :
  markov_kernel ker -> k_mean0 ker = 0 -> increasing (F := Rr) n.+1 z ->
  ssm_nonsing n q -> has_law n.+1 n.+1 (ssm_path q) m V -> - APPROX_INF Rr < z 0%N ->
  expectation M finite E -> moments finite E (fun x => flat n.+1 (x 0%N)) 0 1%:M ->
  let u := ssm_sample n q in
  (forall i, (i < n.+1)%N -> ve_contract finite E (fun x => emission (z i) *m u (x 0%N) i + mean (z i)) (Y i) log_prob ve) ->
  exists e lw,
  [/\ vgp_elbo ker emission mean ve n z Y q = Some e,
      forall eps, log_importance_weight ker emission mean log_prob n z q n.+1 z Y (u eps) (u eps) = Some (lw eps),
      finite (fun x => lw (x 0%N)) /\ E (fun x => lw (x 0%N)) = e &
      let L K (x : nat -> nat -> 'cV[R]_d) := iw_elbo K (fun k => lw (x k)) in
      let w (x : nat -> nat -> 'cV[R]_d) := exp (lw (x 0%N)) in
      finite w -> (forall K, (0 < K <= M)%N -> finite (L K)) ->
      forall K, (0 < K <= M)%N -> e <= E (L K) /\ E (L K) <= ln (E w)].
Proof. exact (fun H1 H2 H3 H4 H5 a H6 => @dense_any o d ker emission mean H1 H2 n z H3 q m V H4 H5 M finite E H6 log_prob ve Y a). Qed.
Print Assumptions C103_dense_bound.

(* Matern 3/2, inducing points 0, 1, ..., n, data between them (the grids are those of
   C67_example), every q of a family, noise of random signs and a Gaussian likelihood *)
Example C103_example (l v s2 : R) n (mu b : 'cV[R]_2) M : 0 < l -> 0 < v ->
  let ker := to_sde (matern32 1 0 l v 0) in
  let z i : R := i%:R in let tau i : R := i%:R / 2%:R in
  let pos_z j := (2 * j)%N in let pos_t i := (2 * i + 1)%N in
  let P := ((2 * n).+1 + n.+1)%N in
  [/\ markov_kernel ker, k_mean0 ker = 0, exists joint, kernel_ssm (2 * n) ker tau = Some joint,
      ssm_nonsing n (ex_ssm (F := Rr) mu b) &
      [/\ expectation M (fun _ => True) (sign_expect (d := 2) P),
          moments (fun _ => True) (sign_expect (d := 2) P) (fun x => flat P (x 0%N)) 0 1%:M &
          forall (f : (nat -> nat -> 'cV[R]_2) -> 'cV[R]_1) y, ve_contract (fun _ => True) (sign_expect (d := 2) P) f y
            (fun f y => \sum_(c < 1) (- 2%:R^-1 * ln (2%:R * PI) - 2%:R^-1 * ln s2 - 2%:R^-1 * (y c 0 - f c 0) ^+ 2 / s2)) (ext_gaussian_ve s2)]].
Proof. exact: any_example. Qed.

(* ---------- C104: more inducing points ---------- *)

(* The inducing points z are among the inducing points z'; Gaussian likelihood, one output.
   At z' some distribution has the largest bound e' of all, and e' is at least the bound of
   every distribution at z.  With every data point among z' it is the log likelihood of the
   dense model. *)
Theorem C104_more_points d (ker : sde_kernel Rr d) (emission : R -> 'M[R]_(1, d)) mean n z n' z' N X Y (s2 : R) :
  markov_kernel ker -> k_mean0 ker = 0 -> 0 < s2 ->
  increasing n.+1 z -> increasing n'.+1 z' -> (0 < n')%N -> - APPROX_INF Rr < z' 0%N ->
  (forall k, (k < N)%N -> z 0%N <= X k <= z n) ->
  (forall j, (j < n.+1)%N -> exists2 i, (i < n'.+1)%N & z' i = z j) ->
  let elbo n z q := svgp_elbo ker emission mean (ext_gaussian_ve s2) n z None N X Y q in
  exists q' e', [/\ ssm_nonsing n' q', elbo n' z' q' = Some e',
    forall q, ssm_nonsing n' q -> exists2 e, elbo n' z' q = Some e & e <= e',
    forall q, ssm_nonsing n q -> exists2 e, elbo n z q = Some e & e <= e' &
    (forall k, (k < N)%N -> exists2 i, (i < n'.+1)%N & z' i = X k) ->
    e' = gauss_logpdf (flat N (fun k => mean (X k))) (f_gram ker emission N N X X + s2%:M) (flat N Y)].
Proof. exact (fun H1 H2 H3 => @grow_any d ker emission mean H1 H2 N X Y s2 H3 n z n' z'). Qed.
Print Assumptions C104_more_points.

(* Matern 3/2: whole numbers among half numbers, the data half-way between whole numbers *)
Example C104_example (l v : R) n : 0 < l -> 0 < v -> (0 < n)%N ->
  let ker := to_sde (matern32 1 0 l v 0) in
  let z i : R := i%:R in let z' i : R := i%:R / 2%:R in let X k : R := (2 * k + 1)%:R / 2%:R in
  [/\ markov_kernel ker, k_mean0 ker = 0, increasing (F := Rr) n.+1 z & - APPROX_INF Rr < z' 0%N] /\
  [/\ increasing (F := Rr) (2 * n).+1 z', (0 < 2 * n)%N, forall k, (k < n)%N -> z 0%N <= X k <= z n,
      forall j, (j < n.+1)%N -> exists2 i, (i < (2 * n).+1)%N & z' i = z j &
      forall k, (k < n)%N -> exists2 i, (i < (2 * n).+1)%N & z' i = X k].
Proof. exact: grow_example. Qed.
