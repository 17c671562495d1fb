(** * Model of the maximum-clique code

    [/repo/include/KimeraRPGO/max_clique_finder/*.cpp] and the three wrappers in
    [/repo/src/utils/GraphUtils.cpp].

    Conventions.  [std::vector<int>] is [list nat]; every access is bounds
    checked ([vget]/[vset]) and an access outside the vector yields
    [Bad OutOfBounds].  [int] and [size_t] are unbounded except for the one
    [size_t] subtraction that can wrap (the start index of the incremental
    search).  Static counters [pruned1..5]/[notComputed] are write-only and left out. *)
From Verif Require Import Prelude.
Set Implicit Arguments.

(** A matrix as the clique code sees it: dimensions and whether an entry differs
    from zero ([adjMatrix(i, j) == 0], graphIO.cpp:199; a NaN entry differs from 0). *)
Record matrix := Mat { m_rows : nat; m_cols : nat; m_at : nat -> nat -> bool }.

(** [CGraphIO]: compressed adjacency lists [m_vi_Vertices], [m_vi_Edges] and
    [m_i_MaximumVertexDegree] (max_clique_finder/graphIO.h).  Minimum and average
    degree are never read by the searches and are left out. *)
Record graph := Graph { g_vs : list nat; g_es : list nat; g_maxdeg : Z }.

(** [map<int, vector<int>> nodeList] (graphIO.cpp:189): absent entries are empty. *)
Definition nodelist := nat -> list nat.
Definition nl_push (nl : nodelist) (i x : nat) : nodelist :=
  fun k => if k =? i then nl k ++ [x] else nl k.

(** Body of the double loop, graphIO.cpp:199-216. *)
Definition read_body (m : matrix) (j i : nat) (nl : nodelist) : nodelist :=
  if (i =? j) || negb (m_at m i j) then nl
  else if existsb (Nat.eqb j) (nl i) then nl
  else nl_push (nl_push nl i j) j i.

(** The double loop, graphIO.cpp:197-218. *)
Definition read_nodelist (m : matrix) : nodelist :=
  fold_left (fun nl j =>
      fold_left (fun nl i => read_body m j i nl) (seq j (m_rows m - j)) nl)
    (seq 0 (m_cols m)) (fun _ => []).

(** Building the compressed arrays, graphIO.cpp:220-225. *)
Definition read_csr (rows : nat) (nl : nodelist) : list nat * list nat :=
  fold_left (fun '(vs, es) i =>
      let es' := es ++ nl i in (vs ++ [length es'], es'))
    (seq 0 rows) ([0], []).

(** [getDegree], utils.cpp:48-50, and the same expression written inline. *)
Definition get_degree (vs : list nat) (idx : nat) : res Z :=
  let* b := vget vs (idx + 1) in
  let* a := vget vs idx in
  Val (Z.of_nat b - Z.of_nat a)%Z.

(** [CalculateVertexDegrees], graphIO.cpp:234-257 (maximum only). *)
Definition calc_max_degree (vs : list nat) : res Z :=
  rfor 0 (length vs - 1) (fun i mx =>
    let* d := get_degree vs i in
    Val (if (mx <? d)%Z then d else mx)) (-1)%Z.

(** [ReadEigenAdjacencyMatrix], graphIO.cpp:188-230. *)
Definition read_eigen (m : matrix) : res graph :=
  let '(vs, es) := read_csr (m_rows m) (read_nodelist m) in
  let* mx := calc_max_degree vs in
  Val (Graph vs es mx).

(** ** Exact search *)

(** Collect [U_new] for the popped vertex [index]: findClique.cpp:57-66.
    [Ur] is [*U] after the pop, stored back first. *)
Definition exact_unew (g : graph) (index : nat) (Ur : list nat) (mc : nat) : res (list nat) :=
  let* lo := vget (g_vs g) index in
  let* hi := vget (g_vs g) (index + 1) in
  rfor lo hi (fun j un =>
    let* e := vget (g_es g) j in
    let* d := get_degree (g_vs g) e in
    Val (if (Z.of_nat mc <=? d)%Z then un ++ filter (Nat.eqb e) (rev Ur) else un)) [].

(** The [while (U->size() > 0)] loop, findClique.cpp:50-76.  [U] is stored back
    first, so [pop_back] is taking the head.  [h] is the recursive call. *)
Section ExactLoop.
  Variable g : graph.
  Variable h : list nat -> nat -> nat -> list nat -> res (nat * list nat).
  Variable sz : nat.
  Fixpoint exact_loop (Ur : list nat) (mc : nat) (inter : list nat) : res (nat * list nat) :=
    match Ur with
    | [] => Val (mc, inter)
    | index :: Ur' =>
        if sz + length Ur <=? mc then Val (mc, inter)
        else
          let* un := exact_unew g index Ur' mc in
          let* '(mc', inter') := h (rev un) (sz + 1) mc inter in
          exact_loop Ur' mc' (if mc <? mc' then inter' ++ [index] else inter')
    end.
End ExactLoop.

(** [maxCliqueHelper], findClique.cpp:31-77. Recursion depth is bounded by fuel. *)
Fixpoint exact_helper (fuel : nat) (g : graph) (Ur : list nat) (sz mc : nat) (inter : list nat)
  : res (nat * list nat) :=
  match fuel with
  | O => Bad OutOfFuel
  | S fuel' =>
      match Ur with
      | [] => if mc <? sz then Val (sz, []) else Val (mc, inter)
      | _ :: _ => exact_loop g (fun Ur' sz' mc' i' => exact_helper fuel' g Ur' sz' mc' i') sz Ur mc inter
      end
  end.

(** Initial candidate set of vertex [i], findClique.cpp:112-123. *)
Definition exact_cands (g : graph) (bits : list bool) (i mc : nat) : res (list nat) :=
  let* lo := vget (g_vs g) i in
  let* hi := vget (g_vs g) (i + 1) in
  rfor lo hi (fun j u =>
    let* e := vget (g_es g) j in
    let* seen := vget bits e in
    if negb seen then
      let* d := get_degree (g_vs g) e in
      Val (if (Z.of_nat mc <=? d)%Z then u ++ [e] else u)
    else Val u) [].

(** One iteration of the outer loop, findClique.cpp:101-132. *)
Definition exact_step (g : graph) (n : nat) (i : nat) (st : list bool * nat * list nat)
  : res (list bool * nat * list nat) :=
  let '(bits, mc, data) := st in
  let* bits := vset bits i true in
  let* d := get_degree (g_vs g) i in
  if (d <? Z.of_nat mc)%Z then Val (bits, mc, data)
  else
    let* u := exact_cands g bits i mc in
    let* '(mc', inter) := exact_helper (n + 1) g (rev u) 1 mc [] in
    Val (bits, mc', if mc <? mc' then inter ++ [i] else data).

(** [maxClique], findClique.cpp:80-145; [GetVertexCount] is [size()-1]. *)
Definition max_clique (g : graph) (l_bound : nat) (data : list nat) : res (nat * list nat) :=
  let n := length (g_vs g) - 1 in
  let* '(_, mc, data') :=
    rfold (exact_step g n) (rev (seq 0 n)) (repeat false n, l_bound, data) in
  Val (mc, data').

(** [findMaxClique], src/utils/GraphUtils.cpp:9-17, called with an empty vector. *)
Definition find_max_clique (m : matrix) : res (nat * list nat) :=
  let* g := read_eigen m in max_clique g 0 [].

(** ** Heuristic search *)

(** Fill the buffer with the candidate and its surviving neighbours,
    findCliqueHeu.cpp:59-71 (and 151-163). *)
Definition heu_fill (g : graph) (mc : Z) (c : nat) (vS : list nat) : res (list nat * nat) :=
  let* vS0 := vset vS 0 c in
  let* hi := vget (g_vs g) (c + 1) in
  let* lo := vget (g_vs g) c in
  rfor lo hi (fun j '(vS, ipos) =>
    let* e := vget (g_es g) j in
    let* d := get_degree (g_vs g) e in
    if (mc <=? d)%Z then
      let* e' := vget (g_es g) j in
      let* vS' := vset vS ipos e' in Val (vS', ipos + 1)
    else Val (vS, ipos)) (vS0, 1).

(** Inner [k] loop with its [break]: is [x] a surviving neighbour of [imdv]?
    findCliqueHeu.cpp:89-99. *)
Fixpoint heu_scan (g : graph) (mc : Z) (x : nat) (ks : list nat) : res bool :=
  match ks with
  | [] => Val false
  | k :: ks' =>
      let* e := vget (g_es g) k in
      if x =? e then
        let* d := get_degree (g_vs g) e in
        if (mc <=? d)%Z then Val true else heu_scan g mc x ks'
      else heu_scan g mc x ks'
  end.

(** The [j] loop filling [v_i_S1], findCliqueHeu.cpp:86-100. *)
Definition heu_collect (g : graph) (mc : Z) (vS : list nat) (ipos imdv : nat) (vS1 : list nat)
  : res (list nat * nat) :=
  rfor 0 ipos (fun j '(vS1, ipos1) =>
    let* hi := vget (g_vs g) (imdv + 1) in
    let* lo := vget (g_vs g) imdv in
    let* x := vget vS j in
    let* b := heu_scan g mc x (seq lo (hi - lo)) in
    if b then let* vS1' := vset vS1 ipos1 x in Val (vS1', ipos1 + 1)
    else Val (vS1, ipos1)) (vS1, 0).

(** Copy back, findCliqueHeu.cpp:102. *)
Definition heu_copy (vS vS1 : list nat) (ipos1 : nat) : res (list nat) :=
  rfor 0 ipos1 (fun j vS => let* x := vget vS1 j in vset vS j x) vS.

(** The [while (iPos > 0)] loop, findCliqueHeu.cpp:75-108. *)
Fixpoint heu_while (fuel : nat) (g : graph) (mc : Z) (vS vS1 : list nat) (ipos icc : nat)
  : res (list nat * list nat * nat) :=
  match ipos with
  | O => Val (vS, vS1, icc)
  | _ =>
      match fuel with
      | O => Bad OutOfFuel
      | S fuel' =>
          let* imdv := vget vS (ipos - 1) in
          let* '(vS1', ipos1) := heu_collect g mc vS ipos imdv vS1 in
          let* vS' := heu_copy vS vS1' ipos1 in
          heu_while fuel' g mc vS' vS1' ipos1 (icc + 1)
      end
  end.

(** One candidate, findCliqueHeu.cpp:52-114 (and 144-205). State: the two
    buffers, which keep their contents between candidates, the best size and
    the data of the best. *)
Definition heu_step (g : graph) (c : nat) (st : list nat * list nat * Z * list nat)
  : res (list nat * list nat * Z * list nat) :=
  let '(vS, vS1, mc, data) := st in
  let* d := get_degree (g_vs g) c in
  if (d <? mc)%Z then Val (vS, vS1, mc, data)
  else
    let* '(vS, ipos) := heu_fill g mc c vS in
    let* '(vS, vS1, icc) := heu_while (length vS) g mc vS vS1 ipos 0 in
    if (mc <? Z.of_nat icc)%Z then Val (vS, vS1, Z.of_nat icc, vS)
    else Val (vS, vS1, mc, data).

(** [maxCliqueHeu], findCliqueHeu.cpp:32-117. *)
Definition max_clique_heu (g : graph) (data : list nat) : res (Z * list nat) :=
  let buf := repeat 0 (Z.to_nat (g_maxdeg g + 1)) in
  let* '(_, _, mc, data') :=
    rfold (heu_step g) (seq 0 (length (g_vs g) - 1)) (buf, buf, (-1)%Z, data) in
  Val (mc, data').

(** [findMaxCliqueHeu], GraphUtils.cpp:19-27, called with an empty vector. *)
Definition find_max_clique_heu (m : matrix) : res (Z * list nat) :=
  let* g := read_eigen m in max_clique_heu g [].

Definition size_t_mod : Z := (2 ^ 64)%Z.

(** Start index of the incremental search: [size_t] arithmetic,
    findCliqueHeu.cpp:141. *)
Definition heu_start (size num_new : nat) : Z :=
  ((Z.of_nat size - Z.of_nat num_new - 1) mod size_t_mod)%Z.

(** [maxCliqueHeuIncremental], findCliqueHeu.cpp:119-209. *)
Definition max_clique_heu_inc (g : graph) (num_new prev : nat) (data : list nat)
  : res (Z * list nat) :=
  let buf := repeat 0 (Z.to_nat (g_maxdeg g + 1)) in
  let start := heu_start (length (g_vs g)) num_new in
  let stop := length (g_vs g) - 1 in
  let cands := if (start <? Z.of_nat stop)%Z
               then seq (Z.to_nat start) (stop - Z.to_nat start) else [] in
  let* '(_, _, mc, data') := rfold (heu_step g) cands (buf, buf, Z.of_nat prev, data) in
  Val (mc, data').

(** [findMaxCliqueHeuIncremental], GraphUtils.cpp:30-44. *)
Definition find_max_clique_heu_inc (m : matrix) (num_new prev : nat) : res (Z * list nat) :=
  let* g := read_eigen m in
  let* '(k, data) := max_clique_heu_inc g num_new prev [] in
  if (Z.of_nat prev <? k)%Z then Val (k, data) else Val (0%Z, data).
