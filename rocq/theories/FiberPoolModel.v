(** Model of the fiber pool and its statistics (hilti/runtime/src/fiber.cc, include/fiber.h).

    Fibers are numbered in the order of their construction. The statistics are uint64_t counters: they wrap. *)
From Verif Require Import Base.

Definition w64 (z : Z) : Z := (z mod 2 ^ 64)%Z.

(** fiber.h:69 (FiberContext::cache) and 302-305 (static counters); [p_next] numbers the fibers constructed so far *)
Record pool := mkPool { p_next : nat; p_cache : list nat; p_total : Z; p_cur : Z; p_cached : Z; p_max : Z }.
Definition pool0 : pool := mkPool 0 [] 0 0 0 0.

(** fiber.cc:312-322 Fiber::Fiber, bookkeeping for fibers with payload *)
Definition fiber_ctor (p : pool) : nat * pool :=
  let cur := w64 (p_cur p + 1) in
  (p_next p, mkPool (S (p_next p)) (p_cache p) (w64 (p_total p + 1)) cur (p_cached p) (if cur >? p_max p then cur else p_max p)%Z).

(** fiber.cc:375-376 ~Fiber *)
Definition fiber_dtor (p : pool) : pool :=
  mkPool (p_next p) (p_cache p) (p_total p) (w64 (p_cur p - 1)) (p_cached p) (p_max p).

(** fiber.cc:683-695 Fiber::create. The cache is a vector used as a stack; its back is the head of the list. *)
Definition pool_create (p : pool) : nat * pool :=
  match p_cache p with
  | f :: c => (f, mkPool (p_next p) c (p_total p) (p_cur p) (w64 (p_cached p - 1)) (p_max p))
  | [] => fiber_ctor p
  end.

(** fiber.cc:704-718 Fiber::destroy (the abort of a suspended fiber, 701-702, does not touch the pool by itself) *)
Definition pool_destroy (csz : nat) (p : pool) (f : nat) : pool :=
  if length (p_cache p) <? csz
  then mkPool (p_next p) (f :: p_cache p) (p_total p) (p_cur p) (w64 (p_cached p + 1)) (p_max p)
  else fiber_dtor p.

(** fiber.cc:720-731 Fiber::primeCache *)
Fixpoint create_n (n : nat) (p : pool) : list nat * pool :=
  match n with
  | O => ([], p)
  | S n' => let (f, p') := pool_create p in let (fs, p'') := create_n n' p' in (f :: fs, p'')
  end.
Definition pool_prime (csz : nat) (p : pool) : pool :=
  let (fs, p') := create_n csz p in fold_left (pool_destroy csz) (rev fs) p'.

(** fiber.cc:733-741 Fiber::reset; cache.clear() destroys the cached fibers *)
Definition pool_reset (p : pool) : pool := mkPool (p_next p) [] 0 0 0 0.
