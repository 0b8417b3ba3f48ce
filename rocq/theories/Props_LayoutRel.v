(** C27 in builds without overflow checks. *)
From Coq Require Import ZArith List Bool Lia.
From Verif Require Import Machine LayoutModel LayoutSpec LayoutFacts LayoutRel Props_Layout.
Import ListNotations.
Local Open Scope Z_scope.

(** thread::create in a release build either does exactly what the build with
    overflow checks does (which panics or gives the thread all it asked for:
    oversized_checked_partial), or the latter panics and the release build asks
    for a mapping smaller than the stack and guard requested.  For all targets,
    TLS segments, page sizes, memories, kernel answers and word-sized requests,
    if the TLS segment and the record fit the address space. *)
Theorem oversized_release_exact a td tls page m tpreg ans fn args stack_size guard_size :
  wf_env a td tls page -> usize a stack_size -> usize a guard_size -> fits a td tls page 0 0 ->
  let release := create false a td tls page m tpreg ans fn args stack_size guard_size in
  let checked := create true a td tls page m tpreg ans fn args stack_size guard_size in
  release = checked \/
  (fst (fst checked) = CPanic /\ snd (fst checked) = [] /\
   exists len r, In (SMmap len r) (snd (fst release)) /\ len < stack_size + guard_size).
Proof.
  intros Hwf Hs Hg Own. cbv zeta. destruct (release_or a td tls page stack_size guard_size Hwf Hs Hg Own) as (L & E & [C|[C S]]).
  - left. unfold create. rewrite E, C. reflexivity.
  - right. unfold create. rewrite E, C. split; [reflexivity|]. split; [reflexivity|]. exists (l_map_size L), (ans_mmap ans).
    split; [|exact S]. destruct (ans_mmap ans); [|left; reflexivity].
    destruct (negb (ans_mprotect ans)); [left; reflexivity|].
    destruct (initialize_tls _ _ _ _ _ _ _ _ _ _ _) as [[[? ?] ?]|]; [|left; reflexivity].
    destruct (0 <=? ans_clone ans); left; reflexivity.
Qed.
Print Assumptions oversized_release_exact.

(** Both cases occur. *)
Theorem oversized_release_exact_ex :
  wf_env X86_64 td8 tls_ex 4096 /\ fits X86_64 td8 tls_ex 4096 0 0 /\
  usize X86_64 (2 ^ 64 - 8) /\
  fst (fst (create true X86_64 td8 tls_ex 4096 mem0 0 ans_ex 0x4000 [] (2 ^ 64 - 8) 0)) = CPanic /\
  fst (fst (create true X86_64 td8 tls_ex 4096 mem0 0 ans_ex 0x4000 [] 65536 4096)) <> CPanic.
Proof.
  split; [exact env_ex|]. split; [vm_compute; reflexivity|]. split; [split; [vm_compute; discriminate|vm_compute; reflexivity]|].
  split; [vm_compute; reflexivity|]. vm_compute. discriminate.
Qed.
Print Assumptions oversized_release_exact_ex.
