{
 "claims": [
  {
   "property": "C01",
   "status": "proved",
   "theorems": [
    "C01_serial_order",
    "C01_order_determines_history",
    "C01_insertion_order_irrelevant"
   ],
   "note": "Any machine (handlers, links, latencies), any setup sends."
  },
  {
   "property": "C02",
   "status": "proved",
   "theorems": [
    "C02_no_loss_no_duplication",
    "C02_until",
    "C02_event_at_stop_time_refuted"
   ],
   "note": "Events due before the stop time are all executed once. An event due exactly at the stop time on the first component's self link has the stop event's key and is dropped (refuted witness)."
  },
  {
   "property": "C03",
   "status": "proved",
   "theorems": [
    "C03_time_monotone"
   ],
   "note": "Ticks are unbounded in the event model; 64-bit wrap is treated in C06."
  },
  {
   "property": "C04",
   "status": "proved",
   "theorems": [
    "C04_never_into_the_past"
   ],
   "note": "Every interleaving of managers between synchronisations. Lookahead bound on cross-manager latency is what Interconnect checks."
  },
  {
   "property": "C05",
   "status": "proved",
   "theorems": [
    "C05_parallel_equals_serial"
   ],
   "note": "Setup sends stay within a manager; see C57 for the other case."
  },
  {
   "property": "C06",
   "status": "partial",
   "theorems": [
    "C06_add_moves_forward",
    "C06_add_assoc",
    "C06_difference",
    "C06_add_timestamps",
    "C06_add_sub_partial",
    "C06_sub_exact_partial",
    "C06_roundtrip_refuted",
    "C06_borrow_refuted",
    "C06_carry_refuted"
   ],
   "note": "(t+a)-a=t fails when t is at tick 0; borrow and carry between epochs are wrong (witnesses)."
  },
  {
   "property": "C07",
   "status": "partial",
   "theorems": [
    "C07_order_partial",
    "C07_le_same_epoch_partial",
    "C07_le_refuted"
   ],
   "note": "operator<= compares ticks when epochs differ (witness); the other five operators are right."
  },
  {
   "property": "C08",
   "status": "partial",
   "theorems": [
    "C08_divide_up_partial",
    "C08_truncation_refuted"
   ],
   "note": "Right below 2^32 ticks; both operands are truncated to 32 bits (witnesses)."
  },
  {
   "property": "C09",
   "status": "proved",
   "theorems": [
    "C09_round_trip"
   ],
   "note": "Values are those a program can hold that the format can express (SerSpec.holds): lengths below 2^31, registered classes, containers empty before reading. Null pointers in lists are the subject of C75."
  },
  {
   "property": "C10",
   "status": "partial",
   "theorems": [
    "C10_size_exact",
    "C10_never_overruns",
    "C10_size_exact_refuted"
   ],
   "note": "Packing never overruns the computed size, for every value at all; the size is exact for all transferable values; exactness fails for a null typed buffer whose size member is nonzero (refuted), where the sizer counts bytes that are not written."
  },
  {
   "property": "C100",
   "status": "proved",
   "theorems": [
    "snappr_port_never_idles",
    "snappr_port_drains"
   ],
   "note": "The event queue is represented by the condition that a scheduled arbitration is run at its time."
  },
  {
   "property": "C101",
   "status": "partial",
   "theorems": [
    "snappr_wrr_lane_order",
    "snappr_fifo_lane_order_partial",
    "snappr_fifo_lane_order_refuted"
   ],
   "note": "Proved for weighted round robin. For the FIFO arbitrator proved when all packets of a lane have one size, and refuted in general: insert sends a small packet although a large one of the same lane waits for credits."
  },
  {
   "property": "C102",
   "status": "partial",
   "theorems": [
    "snappr_port_time_accounted",
    "snappr_stall_time_partial",
    "snappr_stall_time_refuted"
   ],
   "note": "The sum and the absence of overlaps are proved. xmit_stall is at most the waiting time; equality is refuted: stall_start is only set by an arbitration that finds nothing ready, so a packet left without credits when another one is sent waits in time counted as idle."
  },
  {
   "property": "C103",
   "status": "partial",
   "theorems": [
    "wrr_priority",
    "wrr_cap_partial",
    "wrr_cap_refuted",
    "snappr_port_calls_in_order"
   ],
   "note": "Priorities: proved. Cap: proved when another lane without cap could send whenever the capped lane sends; refuted in general, since pop takes a capped lane before its time when nothing else is ready."
  },
  {
   "property": "C104",
   "status": "partial",
   "theorems": [
    "wrr_min_partial",
    "wrr_min_refuted",
    "wrr_min_short_refuted"
   ],
   "note": "Proved when no lane of the priority is of type none and no empty lane of that priority gets a packet while short of credits. Refuted without either condition: popNextNoQos and insert leave next_free unchanged when the lane stalls, and the unstall functions queue the lane with the old value, so it is served before the other lane for ever."
  },
  {
   "property": "C105",
   "status": "proved",
   "theorems": [
    "nic_fifo_accounted",
    "nic_fifo_order",
    "nic_fifo_returns",
    "nic_fifo_drains"
   ],
   "note": "The path with ignore_memory set (the default). Messages have different flow ids. nic_fifo_returns assumes that the qos of the messages is below the number of lanes (otherwise injectPacket aborts); nic_fifo_drains that the buffer has at least one MTU (the code does not check it, and a smaller one blocks for ever)."
  },
  {
   "property": "C106",
   "status": "partial",
   "theorems": [
    "nic_rr_accounted_partial",
    "nic_rr_returns_partial",
    "nic_rr_drains_partial",
    "nic_rr_fair_partial",
    "nic_rr_full_refuted"
   ],
   "note": "Proved while at most 1023 messages are unfinished. Refuted for 1024: RoundRobinQueue::insert does not check whether its ring is full, the full ring looks empty and the NIC stops with room in its buffer."
  },
  {
   "property": "C107",
   "status": "partial",
   "theorems": [
    "nic_lane_partial",
    "nic_scatter",
    "nic_get_lane_refuted"
   ],
   "note": "Proved without rdma_get_qos for both queues (the ring with at most 1023 unfinished messages) and qos values that are not negative, and with scatter_qos. Refuted with rdma_get_qos: injectPacket checks and stores the replaced qos but sets the virtual lane from payload->qos()."
  },
  {
   "property": "C108",
   "status": "proved",
   "theorems": [
    "pt2pt_data",
    "pt2pt_untouched",
    "pt2pt_contiguous",
    "pt2pt_elements"
   ],
   "note": "One address space (no serialization between processes), buffers not null, DIRECT_PUT left out. Which bytes a type packs is C37 (some types pack wrong bytes, see there); here the moved bytes are the same on all protocols and paths."
  },
  {
   "property": "C109",
   "status": "proved",
   "theorems": [
    "pt2pt_once",
    "eager_send_done",
    "pt2pt_complete",
    "pt2pt_settles"
   ],
   "note": "Matching is any pairing of an unmatched message and a posted receive; which pairs MPI matches is C32 and C33."
  },
  {
   "property": "C11",
   "status": "proved",
   "theorems": [
    "C11_space_disjoint",
    "C11_aligned",
    "C11_nothing_lost",
    "C11_reset"
   ],
   "note": "Arbitrary interleavings of the atomic reservation, the locked part of allocateSpace, and the writes. Offsets are multiples of 64 bytes for sizes rounded by align64 (as sendEvent does)."
  },
  {
   "property": "C110",
   "status": "proved",
   "theorems": [
    "pt2pt_no_fault"
   ],
   "note": "The probe notification that reads a deleted eager message (eager0.cc:115-119) is not part of the model."
  },
  {
   "property": "C111",
   "status": "partial",
   "theorems": [
    "eager_truncation_partial",
    "rendezvous_truncation_refuted"
   ],
   "note": "Proved for Eager0 and Eager1. Refuted for rendezvous: matches() compares the 64 bytes of the header, so longer messages overwrite what follows the receive buffer, and messages below 64 bytes that fit are rejected."
  },
  {
   "property": "C112",
   "status": "partial",
   "theorems": [
    "pt2pt_released_partial",
    "pt2pt_released_refuted"
   ],
   "note": "Proved when all sends are Eager1 or contiguous rendezvous. Refuted for Eager0 to another rank (the buffer is replaced by null before the ack is made) and for rendezvous with types that are not contiguous (original is 0)."
  },
  {
   "property": "C113",
   "status": "proved",
   "theorems": [
    "C113_coordinates",
    "C113_cables",
    "C113_nodes"
   ],
   "note": ""
  },
  {
   "property": "C114",
   "status": "partial",
   "theorems": [
    "C114_constructor",
    "C114_minimal_delivers",
    "C114_minimal_deadlock_free",
    "C114_alltoall_wired",
    "C114_missing_links_refuted"
   ],
   "note": "Proved for every wiring with all h links on each upper switch. Refuted without that: the constructors only check the links that exist, so a circulant wiring of two groups of two with h = 2 (circulant is the default wiring) is accepted although half the upper switches have no global link, and packets are sent to a port without a cable."
  },
  {
   "property": "C115",
   "status": "proved",
   "theorems": [
    "C115_par_delivers",
    "C115_par_deadlock_free",
    "C115_detours_exist"
   ],
   "note": "Same wirings as C114. The loop drawing random numbers is assumed to stop."
  },
  {
   "property": "C116",
   "status": "partial",
   "theorems": [
    "C116_distance_partial",
    "C116_distance_refuted"
   ],
   "note": "Exact for two different switches of which one is a leaf. False for two nodes of one leaf switch (2 instead of 0) and for two upper switches of different groups without a common cable (1 instead of more)."
  },
  {
   "property": "C117",
   "status": "partial",
   "theorems": [
    "C117_no_lost_wakeup_partial",
    "C117_arrival_wakes_partial",
    "C117_wake_pending_partial",
    "C117_one_thread",
    "C117_two_posts_refuted"
   ],
   "note": "Proved for good histories (no thread joined twice, posts by running threads only when nobody waits), which include all histories of single-threaded processes; refuted without."
  },
  {
   "property": "C118",
   "status": "partial",
   "theorems": [
    "C118_items_once_in_order_partial",
    "C118_find_takes_oldest_partial",
    "C118_empty_only_when_allowed_partial",
    "C118_two_posts_refuted"
   ],
   "note": "Same condition as C117."
  },
  {
   "property": "C119",
   "status": "partial",
   "theorems": [
    "C119_right_reason_partial",
    "C119_join_after_end_partial",
    "C119_one_active_partial",
    "C119_no_faults_partial",
    "C119_stale_timeout_refuted"
   ],
   "note": "Same condition as C117; the timeout event of a deleted thread is refuted."
  },
  {
   "property": "C12",
   "status": "partial",
   "theorems": [
    "C12_block_valid",
    "C12_block_contiguous",
    "C12_block_load_partial",
    "C12_block_balanced_refuted",
    "C12_occupied_refuted",
    "C12_occupied_partial"
   ],
   "note": "Block partitions are valid and contiguous, no worker exceeds the rounded-up average; they are not balanced (5 switches on 4 workers: 2,2,1,0). The occupied-block strategy is wrong as soon as there are empty switches: unassigned switches, invalid ranks, division by zero; with none it is the block partition."
  },
  {
   "property": "C120",
   "status": "partial",
   "theorems": [
    "mpi_bcast_partial",
    "bcast_contiguous_refuted"
   ],
   "note": "Proved for types that pack correctly (C37). Refuted for MPI_Type_contiguous of more than one element, which is packed wrongly. Buffers not null; communicators without SMP sub-communicators."
  },
  {
   "property": "C121",
   "status": "partial",
   "theorems": [
    "mpi_allgather_partial",
    "mpi_gather_partial",
    "mpi_scatter_partial",
    "mpi_alltoall_partial",
    "mpi_alltoall_in_place",
    "mpi_allgather_vector_refuted",
    "mpi_alltoall_in_place_refuted",
    "mpi_scatter_vector_refuted",
    "mpi_scatter_in_place_refuted"
   ],
   "note": "Proved when the side with several blocks is contiguous (the other side may be any type that packs correctly), with MPI_IN_PLACE for allgather and gather. Refuted for several blocks of a type that is not contiguous (the packed buffer holds one block), for alltoall in place (the exact wrong result is proved) and for scatter in place (written to the address MPI_IN_PLACE)."
  },
  {
   "property": "C122",
   "status": "partial",
   "theorems": [
    "mpi_allgatherv_partial",
    "mpi_vcollective_layout_rejected",
    "mpi_allgatherv_displs_refuted",
    "mpi_allgatherv_types_refuted"
   ],
   "note": "Proved for contiguous types with equal element sizes and blocks without gaps in rank order. Refuted for other displacements (never passed to the engine) and for element sizes that differ between send and receive type (receive counts are multiplied by the send element size). Types that are not contiguous always end in an exception (proved)."
  },
  {
   "property": "C123",
   "status": "partial",
   "theorems": [
    "alltoallv_terminates",
    "alltoallv_traffic",
    "alltoallv_result",
    "mpi_alltoallv_partial",
    "mpi_alltoallv_refuted"
   ],
   "note": "Termination and messages: proved for all executions. Data: the exact contents of the result are described; they are right when a rank receives from one rank only at displacement 0, refuted otherwise (initDag never advances the offsets). Send and receive buffers are disjoint."
  },
  {
   "property": "C124",
   "status": "partial",
   "theorems": [
    "smp_allgather_result",
    "smp_allgather_partial",
    "smp_allgather_only_consecutive",
    "smp_allgather_order_refuted",
    "smp_allgather_one_node_refuted",
    "smp_allgather_uneven_refuted"
   ],
   "note": "Holds for at least two evenly filled nodes with consecutive ranks. Otherwise blocks come out node by node (wrong order), and on a single node or on unevenly filled nodes the allgather never ends."
  },
  {
   "property": "C125",
   "status": "partial",
   "theorems": [
    "smp_alltoall_refuted",
    "smp_alltoall_shared",
    "smp_alltoall_overrun_refuted"
   ],
   "note": "False on every evenly filled placement: the ranks of a node all end with the same result, and the gather within the node writes behind its buffer. Proved: it ends, and what ranks of a node share."
  },
  {
   "property": "C126",
   "status": "partial",
   "theorems": [
    "smp_allreduce_idle",
    "smp_allreduce_refuted",
    "smp_allreduce_abort_refuted"
   ],
   "note": "False: only the last, empty collective of the chain is started, so the call ends at once and no result buffer changes; on a communicator whose ranks differ from the global ones it can also abort."
  },
  {
   "property": "C127",
   "status": "proved",
   "theorems": [
    "early_messages_once",
    "messages_reach_their_queue",
    "proper_never_fails"
   ],
   "note": "proper use: see NdSpec.proper; improper use is C129"
  },
  {
   "property": "C128",
   "status": "partial",
   "theorems": [
    "arrival_order_partial",
    "arrival_order_refuted"
   ],
   "note": "false: registerLib sends the kept requests as new events while a request that arrives before these are executed is delivered at once; proved when nothing arrives in between"
  },
  {
   "property": "C129",
   "status": "partial",
   "theorems": [
    "early_queue_refuted",
    "held_never_handed",
    "reserved_queue_refuted",
    "stale_queue_refuted",
    "queue_numbers_distinct"
   ],
   "note": "false: allocateCq calls the callback it just moved from, so a queue with held messages cannot be set up (held messages are never handed out); a number reserved without callback receives messages into an empty function; deallocateCq leaves the callback in place. Proved: queue numbers in use are different"
  },
  {
   "property": "C13",
   "status": "proved",
   "theorems": [
    "C13_torus_coords_bijection"
   ],
   "note": "All dimension lists with positive sizes."
  },
  {
   "property": "C130",
   "status": "partial",
   "theorems": [
    "clean_end_partial",
    "late_message_server_refuted",
    "late_message_abort_refuted"
   ],
   "note": "false for messages that arrive after their process ended: they keep the server for ever or make the destructor of the operating system abort; proved when every message was dealt with"
  },
  {
   "property": "C131",
   "status": "partial",
   "theorems": [
    "neighbours_partial",
    "neighbours_refuted"
   ],
   "note": "proved when all ranks of the node started and none ended; false after a message to a process that ended, since looking it up makes an entry"
  },
  {
   "property": "C132",
   "status": "partial",
   "theorems": [
    "requests_once",
    "library_calls_right",
    "library_by_name_partial",
    "library_by_name_refuted"
   ],
   "note": "false when two libraries of the same name exist: destroying the older one hides the newer one; proved for different names"
  },
  {
   "property": "C133",
   "status": "proved",
   "theorems": [
    "sculpin_port_never_aborts",
    "sculpin_port_fifo",
    "sculpin_port_priority",
    "sculpin_port_drains",
    "sculpin_port_uncongested"
   ],
   "note": "one output port; sequence numbers do not wrap around; without congestion_ every packet starts at once"
  },
  {
   "property": "C134",
   "status": "proved",
   "theorems": [
    "sculpin_link_times",
    "sculpin_link_disjoint"
   ],
   "note": "times are unbounded ticks"
  },
  {
   "property": "C135",
   "status": "proved",
   "theorems": [
    "sculpin_port_order",
    "sculpin_tail_causal",
    "sculpin_path_order"
   ],
   "note": "the path is given; every byte takes time (delay > 0) for the order"
  },
  {
   "property": "C136",
   "status": "partial",
   "theorems": [
    "sculpin_cut_partial",
    "sculpin_cut_refuted",
    "sculpin_cut_never_ends",
    "sculpin_inject_times",
    "sculpin_eject_times",
    "sculpin_flow_order"
   ],
   "note": "false for messages of 2^32 bytes and more, which are cut for ever; proved for all others"
  },
  {
   "property": "C137",
   "status": "partial",
   "theorems": [
    "stack_aligned",
    "stack_own_data",
    "stacks_disjoint",
    "stack_usable",
    "stack_guarded",
    "stack_alloc_partial",
    "stack_alloc_refuted",
    "stack_default"
   ],
   "note": "false when stack_chunk_size is the size of one stack: the new chunk holds no stack and the last element of an empty vector is used; proved for chunks of two stacks or more, which the default is; int overflow of 8 * stack_size is not modelled"
  },
  {
   "property": "C138",
   "status": "partial",
   "theorems": [
    "global_slots_disjoint",
    "global_aligned_partial",
    "global_aligned_refuted",
    "global_init_order",
    "global_declared_order"
   ],
   "note": "alignment is on four bytes only: a double behind an int is misaligned"
  },
  {
   "property": "C139",
   "status": "partial",
   "theorems": [
    "globals_private_partial",
    "globals_separate",
    "globals_initial",
    "globals_declare_idle",
    "globals_size_refuted",
    "globals_thread_end_refuted",
    "globals_thread_declare_refuted",
    "globals_late_refuted"
   ],
   "note": "false with globals_size (a later start reads behind the buffer of initial values), when a thread that is not the main thread has ended (its segment stays registered: later initialisation writes to freed memory, later declarations abort) and for variables declared while a process runs (not initialised in it); proved for histories without these"
  },
  {
   "property": "C14",
   "status": "partial",
   "theorems": [
    "C14_torus_cables_paired",
    "C14_torus_ports_used_once",
    "C14_size_one_dimension_refuted"
   ],
   "note": "Holds for every torus whose dimensions are all at least 2; false for a dimension of size 1, where the minus cable goes to a wrong (possibly negative) switch id (witness)."
  },
  {
   "property": "C140",
   "status": "partial",
   "theorems": [
    "logp_injection_partial",
    "logp_injection_refuted"
   ],
   "note": "false for messages of 2 GB and more, which negligibleSize(int) takes for negligible: they are injected in no time; proved for all shorter ones"
  },
  {
   "property": "C141",
   "status": "partial",
   "theorems": [
    "logp_delivered_once",
    "logp_reception_partial",
    "logp_reception_refuted"
   ],
   "note": "delivery once and the lower bound hold always; receptions overlap when a message comes earlier in the run than its reception takes (the subtraction of times underflows); proved otherwise"
  },
  {
   "property": "C142",
   "status": "partial",
   "theorems": [
    "logp_order_partial",
    "logp_order_refuted",
    "logp_order_small_refuted"
   ],
   "note": "false when the network is slower than the NICs (short messages overtake long ones) and for messages not longer than negligible_size; proved otherwise, with the other traffic at the receiver arbitrary"
  },
  {
   "property": "C143",
   "status": "proved",
   "theorems": [
    "logp_memory_serial"
   ],
   "note": ""
  },
  {
   "property": "C144",
   "status": "partial",
   "theorems": [
    "compute_time_partial",
    "compute_time_refuted"
   ],
   "note": "false for memory faster than one byte per tick: the request delay per byte is cut to whole ticks and the instruction time is lost; proved for all slower memory"
  },
  {
   "property": "C145",
   "status": "partial",
   "theorems": [
    "pisces_memory_partial",
    "pisces_memory_large",
    "pisces_memory_large_refuted",
    "pisces_memory_request_refuted"
   ],
   "note": "false for flows of packet_size + 2^32 bytes and more (never end) and for accessRequest, which never gives its channel back (after as many requests as channels the memory stops); proved for all other flows, with callbacks that ask for further flows"
  },
  {
   "property": "C146",
   "status": "proved",
   "theorems": [
    "snappr_memory_flows"
   ],
   "note": ""
  },
  {
   "property": "C147",
   "status": "proved",
   "theorems": [
    "snappr_memory_channels"
   ],
   "note": ""
  },
  {
   "property": "C148",
   "status": "partial",
   "theorems": [
    "persistent_partial",
    "persistent_cycles",
    "inactive_wait_refuted",
    "inactive_again_refuted",
    "inactive_any_refuted",
    "persistent_test_refuted"
   ],
   "note": "Holds for programs that wait only for active requests and do not test persistent ones. False beyond: MPI_Wait on a request never started blocks for ever, a second wait reports the old message, MPI_Waitany returns a finished inactive request again and again, MPI_Test deletes a persistent request."
  },
  {
   "property": "C149",
   "status": "partial",
   "theorems": [
    "proc_null_no_transfer",
    "proc_null_partial",
    "proc_null_ignore_refuted",
    "proc_null_status_refuted"
   ],
   "note": "False with MPI_STATUS_IGNORE in MPI_Recv and MPI_Sendrecv (null pointer written) and for persistent receives (status never set)."
  },
  {
   "property": "C15",
   "status": "proved",
   "theorems": [
    "C15_torus_minimal_delivers",
    "C15_torus_distance_is_graph_distance",
    "C15_walk_follows_cables"
   ],
   "note": "Delivery for all positive dimension lists; graph distance for sizes at least 2 (C14)."
  },
  {
   "property": "C150",
   "status": "partial",
   "theorems": [
    "test_poll_partial",
    "iprobe_poll_partial",
    "poll_not_early",
    "poll_blind_refuted"
   ],
   "note": "Holds when the delay is at least one microsecond; false below, the default of iprobe_delay (0 s) included: no message is ever handled and the loop does not end."
  },
  {
   "property": "C151",
   "status": "partial",
   "theorems": [
    "params_roundtrip",
    "ranks_agree_partial",
    "ranks_differ_refuted",
    "ranks_lose_value_refuted",
    "ranks_fail_refuted"
   ],
   "note": "proved if no key or namespace has blanks around it or starts with # or } and no line of a parameter contains 'set var ' (everything else needed is shown to hold of what the parser leaves behind); false without: 'node. id = 3' gives rank 0 the key ' id' and the others 'id'; a value from a variable that contains 'set var ' is lost on the other ranks; 'node.}x = 3' makes the other ranks close one namespace too many"
  },
  {
   "property": "C152",
   "status": "proved",
   "theorems": [
    "file_meaning",
    "layout_free",
    "read_in_pieces",
    "dotted_is_block",
    "assignment_sets",
    "last_assignment_wins"
   ],
   "note": "the tree of namespaces refines a table from place and key to value; in dotted_is_block and assignment_sets the names are free of dots, equals signs and surrounding blanks, and the words are not mistaken for a comment, a brace or a variable setting"
  },
  {
   "property": "C153",
   "status": "proved",
   "theorems": [
    "command_line_wins",
    "combine_keeps",
    "read_stored"
   ],
   "note": "for merged parameters that have one value per key, no dot in a key and no value starting with a dollar sign; read_stored shows this of everything read from a file"
  },
  {
   "property": "C154",
   "status": "partial",
   "theorems": [
    "reading_ends_partial",
    "variable_loop_refuted",
    "include_loop_refuted",
    "extra_brace_refuted",
    "unset_include_refuted"
   ],
   "note": "proved for files without dollar signs and includes; false otherwise: a variable that stands for itself and a file that includes itself are followed for ever; a closing brace too many empties the list of scopes, whose back is then used; an unset line for a key that contains the word include is taken for an include line and aborts"
  },
  {
   "property": "C155",
   "status": "partial",
   "theorems": [
    "thread_life_partial",
    "deleted_only_ended",
    "join_returns_at_end",
    "no_joiner_forgotten",
    "no_thread_left",
    "exit_join_refuted",
    "canceled_starts_refuted",
    "deleted_process_used_refuted",
    "late_detach_refuted"
   ],
   "note": "Proved for programs that join or detach every thread before main returns and do not use pthread_exit. False otherwise: a thread that leaves with pthread_exit is never seen to end and its joiner waits for ever; a thread that has not started when main returns starts although it was canceled, and uses the deleted process; a thread detached after its end is never deleted."
  },
  {
   "property": "C156",
   "status": "partial",
   "theorems": [
    "affinity_partial",
    "affinity_one",
    "affinity_unknown_refuted",
    "affinity_other_refuted",
    "affinity_deleted_refuted"
   ],
   "note": "False: threads are filed under the number of their task, so the call finds no thread, or the thread of that task that started last, which may have been deleted. Proved: at most one mask changes, that of a thread whose task has the given number."
  },
  {
   "property": "C157",
   "status": "partial",
   "theorems": [
    "scatter_goes_on",
    "scatter_arrives",
    "alltoall_linked",
    "scatter_unlinked_refuted"
   ],
   "note": "Proved for every wiring in which any two groups have a link, which all-to-all wiring always is. False for other wirings the constructor accepts, for example single links with 2 routers in each of 5 groups: the port set is empty, and the check for that is only compiled in with SSTMAC_SANITY_CHECK."
  },
  {
   "property": "C158",
   "status": "proved",
   "theorems": [
    "reseed_restarts"
   ],
   "note": "For all seven generators, by extensional equality of the 256 entry tables after they are filled."
  },
  {
   "property": "C159",
   "status": "partial",
   "theorems": [
    "cong_full_period",
    "mwc_full_period",
    "mwc_other_seeds_refuted",
    "shr3_permutes_partial",
    "shr3_period_refuted",
    "swb_recurrence_partial",
    "swb_documented_refuted",
    "lfib4_recurrence_partial",
    "lfib4_documented_refuted"
   ],
   "note": "CONG is proved as documented, and MWC, whose period is (36969*2^15-1)*(18000*2^15-1), for seeds below its two moduli and not zero; seeded with the moduli it stands still. SHR3 is a permutation that keeps zero apart, but its period is not 2^32-1: 0xaea21b8f is a fixed point. SWB and LFIB4 are not the documented recurrences; the ones they do compute are proved: x(n-222) - x(n-236) - (x(n-222) < x(n-237)) and lags 256, 198, 137, 77."
  },
  {
   "property": "C16",
   "status": "proved",
   "theorems": [
    "C16_torus_minimal_deadlock_free",
    "C16_torus_positive_deadlock_free"
   ],
   "note": "At most 128 dimensions, since last_dim is a char."
  },
  {
   "property": "C17",
   "status": "proved",
   "theorems": [
    "C17_torus_valiant_delivers",
    "C17_torus_ugal_delivers",
    "C17_torus_positive_delivers"
   ],
   "note": "The random choice and the UGAL congestion comparison are arbitrary. dest_switch is not truncated to 24 bits in the model."
  },
  {
   "property": "C18",
   "status": "proved",
   "theorems": [
    "C18_hypercube_wiring",
    "C18_hypercube_minimal_delivers",
    "C18_hypercube_distance_is_graph_distance",
    "C18_hypercube_minimal_deadlock_free"
   ],
   "note": "All dimension lists with positive sizes; includes wiring symmetry, graph distance and absence of cyclic waits with one virtual channel."
  },
  {
   "property": "C19",
   "status": "partial",
   "theorems": [
    "C19_fat_tree_paired_iff",
    "C19_agg_core_paired_partial",
    "C19_ports_unique_partial",
    "C19_input_port_collision_refuted"
   ],
   "note": "Exact characterisation: symmetric iff down_ports_per_agg_switch = leaf_switches_per_subtree (or one leaf and one aggregation switch per subtree). For other accepted parameters the agg->leaf input port formula is not the inverse of leaf->agg, and two aggregation switches can feed the same leaf input port (witness). Agg-core cables are always symmetric."
  },
  {
   "property": "C20",
   "status": "proved",
   "theorems": [
    "C20_fat_tree_delivers",
    "C20_fat_tree_deadlock_free"
   ],
   "note": "Any state of the rotating port counters. Routing looks only at destinations of cables, so holds also where C19 fails."
  },
  {
   "property": "C21",
   "status": "partial",
   "theorems": [
    "C21_circulant_symmetric",
    "C21_alltoall_symmetric",
    "C21_single_symmetric_iff",
    "C21_single_ports_unique_partial",
    "C21_single_odd_refuted"
   ],
   "note": "Circulant and all-to-all: proved for all accepted shapes. Single link: exact characterisation (even group size or group count divides group size + 1); false otherwise with witness."
  },
  {
   "property": "C22",
   "status": "proved",
   "theorems": [
    "C22_minimal_delivers",
    "C22_minimal_deadlock_free",
    "C22_vc_counts_global_hops"
   ],
   "note": "For circulant, all-to-all and single wirings with enough links to reach every group; any state of the rotating counters."
  },
  {
   "property": "C23",
   "status": "partial",
   "theorems": [
    "cascade_routing_refuted",
    "cascade_delivery_refuted",
    "cascade_gateway_partial",
    "cascade_in_group_partial"
   ],
   "note": "Refuted for every cascade with two or more groups: some packet is sent to a port without cable or routing throws. Proved: packets inside a group are delivered in minimalDistance hops; the search for a gateway (as the router defines it) takes at most two hops over existing cables."
  },
  {
   "property": "C24",
   "status": "proved",
   "theorems": [
    "dag_starts_once",
    "dag_completes_once",
    "dag_done_last",
    "dag_runs_to_completion",
    "dag_completion_refuted"
   ],
   "note": "Executor of DagCollectiveActor with an explicit call stack; sends and receives complete in any order, also within startAction; steps bounded by 7*|dependencies|+1. dag_completion_refuted records that an empty schedule never reports completion, which the quantifier excludes. Unresolved ranks left out."
  },
  {
   "property": "C25",
   "status": "proved",
   "theorems": [
    "message_id_decodes",
    "message_id_distinct",
    "message_id_parity",
    "message_id_distinct_refuted"
   ],
   "note": "In the range of rounds below max_round = 500 and partners below 2^32/3000. Outside it ids collide (message_id_distinct_refuted)."
  },
  {
   "property": "C26",
   "status": "proved",
   "theorems": [
    "folding_bijective"
   ],
   "note": ""
  },
  {
   "property": "C27",
   "status": "proved",
   "theorems": [
    "allgather_delivers_all_blocks",
    "allgather_terminates",
    "allgather_in_bounds",
    "allgather_no_overrun"
   ],
   "note": "Bruck allgather for every number of ranks and every block size, over all interleavings of the asynchronous round machine."
  },
  {
   "property": "C28",
   "status": "proved",
   "theorems": [
    "alltoall_transposes",
    "alltoall_terminates",
    "alltoall_temp_fits",
    "alltoall_no_overrun"
   ],
   "note": "Bruck alltoall for every number of ranks and block size, over all interleavings; the temporary buffers are large enough for every exchange."
  },
  {
   "property": "C29",
   "status": "proved",
   "theorems": [
    "allreduce_reduces",
    "allreduce_terminates"
   ],
   "note": "All interleavings of the roles, the two roles of one rank sharing one buffer. Contiguous data types."
  },
  {
   "property": "C30",
   "status": "proved",
   "theorems": [
    "bcast_delivers",
    "bcast_early"
   ],
   "note": "Binary-tree broadcast for every number of ranks and every root on an asynchronous machine of phases (PhModel.v): bounded, no deadlock, no message left over, result exact; buffers outside the first nelems elements untouched."
  },
  {
   "property": "C31",
   "status": "proved",
   "theorems": [
    "init_ascending",
    "dense_is_count",
    "sparse_of_dense",
    "dense_of_sparse",
    "dense_monotone",
    "dense_onto"
   ],
   "note": "Both searches, any number of failures."
  },
  {
   "property": "C32",
   "status": "proved",
   "theorems": [
    "messages_in_order",
    "messages_all_handled",
    "sent_to_program"
   ],
   "note": "every program of sends on every rank, every delivery order, any interleaving with receives, probes and payloads"
  },
  {
   "property": "C33",
   "status": "partial",
   "theorems": [
    "matching_sound",
    "earliest_receive",
    "no_missed_match",
    "non_overtaking_partial",
    "earlier_are_handled",
    "overtaking_refuted"
   ],
   "note": "false as stated: an Eager1-sized message (513 to 8192 bytes by default) is matched only when its payload arrives and is overtaken by a later short message; everything else is proved"
  },
  {
   "property": "C34",
   "status": "proved",
   "theorems": [
    "create_id_agreed_fresh",
    "create_group_id_agreed_fresh",
    "split_id_agreed_fresh",
    "comm_id_unambiguous"
   ],
   "note": "For every history of correct calls making fewer than 0x44444444 communicators (the id of MPI_COMM_SELF)."
  },
  {
   "property": "C35",
   "status": "proved",
   "theorems": [
    "split_order",
    "split_rank_is_position"
   ],
   "note": ""
  },
  {
   "property": "C36",
   "status": "partial",
   "theorems": [
    "cart_rank_of_coords",
    "cart_coords_of_rank",
    "cart_shift_partial",
    "cart_shift_one_turn_partial",
    "cart_shift_refuted"
   ],
   "note": "Ranks and coordinates are inverse on every grid. Shift is right unless a periodic direction is left downwards by more than one turn; then C++ remainder gives a negative rank: refuted."
  },
  {
   "property": "C37",
   "status": "partial",
   "theorems": [
    "transfer_same_offset",
    "transfer_exact_partial",
    "contiguous_refuted",
    "vector_block_refuted",
    "indexed_refuted",
    "struct_padding_refuted",
    "vector_count_refuted",
    "recv_count_refuted"
   ],
   "note": "Refuted for contiguous types, blocks longer than one, displacements, padding and repeated vectors. Exact for gapless blocks and vectors of single elements; for all types with nonempty blocks, bytes only move to the same offset."
  },
  {
   "property": "C38",
   "status": "partial",
   "theorems": [
    "collective_tags_equal",
    "collective_tags_unique_partial",
    "collective_tags_wrap_refuted",
    "create_group_tags_refuted"
   ],
   "note": "Exact condition for equal tags; unique for ids and distances below 65536; refuted beyond and for the temporary communicators of MPI_Comm_create_group."
  },
  {
   "property": "C39",
   "status": "proved",
   "theorems": [
    "credits_conserved",
    "receiver_never_overrun"
   ],
   "note": "For every network wired like the constructors do, every output port and channel, in every reachable state: credits plus bytes on the link, buffered behind it and in returning credits equal the configured share; what is on the link and buffered never exceeds it."
  },
  {
   "property": "C40",
   "status": "partial",
   "theorems": [
    "queued_means_busy_partial",
    "queued_means_busy_refuted"
   ],
   "note": "Holds if a packet fits the credits of one virtual channel. The constructor only compares the MTU with the credits of the whole link, so an accepted configuration can hold a packet for ever with nothing in flight."
  },
  {
   "property": "C41",
   "status": "partial",
   "theorems": [
    "packets_make_up_messages_partial",
    "completes_on_last_packet",
    "each_message_completes_once",
    "empty_message_lost_refuted"
   ],
   "note": "Sending is proved for messages with at least one byte, for every order of sends and credit returns; receiving for every message and every interleaving. A message of no bytes is dropped when credits are short; such messages reach doSend only with a negative negligible_size."
  },
  {
   "property": "C42",
   "status": "partial",
   "theorems": [
    "simple_arbitrator_exclusive",
    "cut_through_exclusive_partial",
    "null_arbitrator_refuted",
    "cut_through_small_refuted",
    "cut_through_bandwidth_refuted",
    "cut_through_early_refuted"
   ],
   "note": "Holds for the store-and-forward arbitrator, and for cut-through with packets of at least 3 bytes that arrive no slower than they leave. In general cut-through lets packets of up to 2 bytes leave at time 0, exceeds the bandwidth, and lets packets leave before they have arrived. The null arbitrator models no congestion on purpose."
  },
  {
   "property": "C43",
   "status": "partial",
   "theorems": [
    "trylock_excludes_refuted",
    "signal_excludes_refuted",
    "rwlock_excludes_refuted",
    "mutex_excludes_partial",
    "mutex_fifo_partial",
    "mutex_resume_partial"
   ],
   "note": "Refuted for trylock (never takes the mutex), for signals sent by the holder (mutex handed over while still held) and for read-write locks (no-ops). Proved for lock, unlock and wait by any number of threads with signals sent while the mutex is free: exclusion, FIFO order, and holding on return from a wait."
  },
  {
   "property": "C44",
   "status": "partial",
   "theorems": [
    "C44_sharing_refuted",
    "C44_leak_refuted",
    "C44_no_sharing_partial",
    "C44_all_freed_partial"
   ],
   "note": "False in general: file-based task mappers ignore the allocation, so a finished job frees nodes of another; nodes without a rank are never freed. Proved for both launchers and all allocators with block, random and round-robin mapping; all nodes return when each job uses all its nodes."
  },
  {
   "property": "C45",
   "status": "partial",
   "theorems": [
    "C45_round_robin_refuted",
    "C45_file_mapper_refuted",
    "C45_block_places_all",
    "C45_random_places_all",
    "C45_round_robin_places_all_partial",
    "C45_refusal"
   ],
   "note": "False for round robin when nproc is not a multiple of ppn (ranks dropped) and for file mappers. Proved for block and random mapping, and round robin on whole multiples."
  },
  {
   "property": "C46",
   "status": "partial",
   "theorems": [
    "cpuset_cores_exclusive",
    "cpuset_waits_only_for_cores",
    "cpuset_requests_served",
    "cpuset_exclusive_above_32_refuted",
    "simple_capacity",
    "simple_exclusive_refuted",
    "simple_work_conserving_refuted",
    "simple_work_conserving_partial"
   ],
   "note": "The cpuset scheduler is proved exclusive, work conserving and faithful to requests up to 31 cores; above 32 cores the int shifts alias and it is refuted. The simple scheduler never exceeds the core count, but hands out duplicate core numbers and wakes only one waiter per release (refuted); for one-core requests it is proved work conserving."
  },
  {
   "property": "C47",
   "status": "partial",
   "theorems": [
    "C47_cells_partial",
    "C47_conserved_partial",
    "C47_rows_partial",
    "C47_boundary_refuted"
   ],
   "note": "Each cell is the exact overlap, columns add up to the time in the state and rows to the epoch length, provided the last event does not end on an epoch boundary; if it does, the code writes past the end of the table (refuted)."
  },
  {
   "property": "C48",
   "status": "partial",
   "theorems": [
    "C48_bins_partial",
    "C48_max_refuted",
    "C48_integer_refuted",
    "C48_integer_partial"
   ],
   "note": "True for samples different from the maximum. The maximum itself is written past the last bin; with integer samples the rounded-down bin size sends many in-range samples past the end. Doubles are modelled as exact rationals."
  },
  {
   "property": "C49",
   "status": "proved",
   "theorems": [
    "C49_every_rank_started_once",
    "C49_terminates",
    "C49_array_bound"
   ],
   "note": ""
  },
  {
   "property": "C50",
   "status": "proved",
   "theorems": [
    "C50_grid_has_n_cells",
    "C50_factor_array_bound"
   ],
   "note": "Trial-division factorization and the whole candidate search modelled; also the 33-entry factor arrays never overflow for int arguments."
  },
  {
   "property": "C51",
   "status": "partial",
   "theorems": [
    "wait_once",
    "wait_null",
    "waitall_all",
    "waitany_one",
    "waitsome_exact_partial",
    "test_once_partial",
    "testall_flag_partial",
    "testany_one_partial",
    "testsome_exact_partial",
    "test_persistent_refuted",
    "testall_consumes_refuted",
    "testany_null_refuted",
    "testsome_null_refuted",
    "waitsome_status_refuted",
    "waitsome_null_stuck",
    "waitsome_null_refuted"
   ],
   "note": "Wait, Waitall and Waitany are right for every array of live, different handles and every message order. Waitsome reports the right requests but stores statuses by array position and blocks for ever on null handles. The test calls are right only without null and persistent handles; Testall consumes requests while answering no."
  },
  {
   "property": "C52",
   "status": "partial",
   "theorems": [
    "once_once_refuted",
    "once_runs_partial"
   ],
   "note": "The control is set to 0 again, so the routine runs at every call; only at-least-once holds."
  },
  {
   "property": "C53",
   "status": "partial",
   "theorems": [
    "rank_translation_partial",
    "members_injective",
    "shifted_my_rank_ok",
    "rank_translation_refuted",
    "my_rank_uninitialised_refuted"
   ],
   "note": "Round trip for global, map, shifted, rotated and sub-range communicators with shifts up to the size; false for index communicators (they abort) and larger shifts. Rotated and sub-range communicators compute their own rank from uninitialised fields."
  },
  {
   "property": "C54",
   "status": "partial",
   "theorems": [
    "early_messages_kept",
    "unstarted_messages_held",
    "completion_reported_once_partial",
    "nothing_else_reported",
    "completion_lost_refuted"
   ],
   "note": "Any interleaving, any actor behaviour, chains of subsequent collectives included. Completion is reported exactly once when no collective is complete before its first message; a collective that needs no message is never reported, shown by the refutation."
  },
  {
   "property": "C55",
   "status": "proved",
   "theorems": [
    "maxloc_any_order",
    "minloc_any_order",
    "loc_order_independent"
   ],
   "note": "Element-wise over whole buffers, for every reduction tree. Values are integers; float values behave the same without NaN."
  },
  {
   "property": "C56",
   "status": "proved",
   "theorems": [
    "C56_alloc",
    "C56_disjoint"
   ],
   "note": "Assumes operator new[] returns blocks disjoint from earlier ones and the program frees only live chunks; frees by other threads included."
  },
  {
   "property": "C57",
   "status": "partial",
   "theorems": [
    "C57_setup_send_lost_refuted"
   ],
   "note": "False of the code: min_ipc_time_ is reset at the start of runEvents, so an IPC event sent during setup is not in the first vote. C05 is what holds when setup does not send across ranks."
  },
  {
   "property": "C58",
   "status": "partial",
   "theorems": [
    "C58_units_exact_partial",
    "C58_units_refuted"
   ],
   "note": "Exact when the tick spacing divides 1000 as; otherwise the constants are truncated (witness 300 as)."
  },
  {
   "property": "C59",
   "status": "partial",
   "theorems": [
    "C59_torus_valiant_cyclic_wait_refuted",
    "C59_torus_valiant_first_phase_partial"
   ],
   "note": "False of the code: crossed_timeline and last_dim survive into the second phase, so vc 3 is used all round a ring."
  },
  {
   "property": "C60",
   "status": "proved",
   "theorems": [
    "C60_fully_connected_wiring",
    "C60_fully_connected_delivers",
    "C60_star_delivers"
   ],
   "note": "FullyConnected::minimalDistance returns 1 even for equal switches; it is not part of this claim."
  },
  {
   "property": "C61",
   "status": "proved",
   "theorems": [
    "C61_par_delivers",
    "C61_par_deadlock_free"
   ],
   "note": "Sizes limited to the header bit fields: each dimension at most 64, at most 2^24 switches, ports below 2^16."
  },
  {
   "property": "C62",
   "status": "partial",
   "theorems": [
    "C62_leaf_hops_is_graph_distance",
    "C62_minimal_distance_refuted",
    "C62_distance_zero_partial"
   ],
   "note": "False of the code: minimalDistance subtracts num_leaf_switches from a leaf id (witness both ways). The right value is proved to be the graph distance."
  },
  {
   "property": "C63",
   "status": "proved",
   "theorems": [
    "C63_torus_nodes",
    "C63_hypercube_nodes",
    "C63_fully_connected_nodes",
    "C63_star_nodes",
    "C63_dragonfly_nodes",
    "C63_fat_tree_nodes"
   ],
   "note": ""
  },
  {
   "property": "C64",
   "status": "partial",
   "theorems": [
    "C64_distance_refuted",
    "C64_distance_upper_bound_partial"
   ],
   "note": "False: a switch is at distance 1 from itself, and local-global paths of two cables are reported as three. Proved: never too small for distinct switches."
  },
  {
   "property": "C65",
   "status": "proved",
   "theorems": [
    "C65_valiant_ugal_deliver",
    "C65_valiant_ugal_deadlock_free"
   ],
   "note": "The random draws are assumed to return (the loop in the code does not terminate with two routers per group or two groups)."
  },
  {
   "property": "C66",
   "status": "proved",
   "theorems": [
    "C66_rotate_delivers",
    "C66_rotate_alltoall",
    "C66_rotate_deadlock_free"
   ],
   "note": ""
  },
  {
   "property": "C67",
   "status": "partial",
   "theorems": [
    "C67_par_vc_overflow_refuted",
    "C67_par_delivers_partial",
    "C67_par_alltoall_partial"
   ],
   "note": "False on circulant wirings: a seven-hop path asks for channel 6 of 6. Proved: delivery within seven hops on channels 0..6; six channels suffice on all-to-all."
  },
  {
   "property": "C68",
   "status": "proved",
   "theorems": [
    "C68_node_to_rank_exact"
   ],
   "note": ""
  },
  {
   "property": "C69",
   "status": "proved",
   "theorems": [
    "C69_exclusive_fifo"
   ],
   "note": ""
  },
  {
   "property": "C70",
   "status": "partial",
   "theorems": [
    "C70_cart_refuted",
    "C70_allocation_exact",
    "C70_first_available_exact"
   ],
   "note": "False for the Cartesian allocator, which ignores the requested count. Proved for first-available, random, strided and dragonfly-greedy allocation."
  },
  {
   "property": "C71",
   "status": "partial",
   "theorems": [
    "C71_incast_refuted",
    "C71_incast_mirrors_partial"
   ],
   "note": "False: the receive count is always 0 and both arrays share the send counter. Proved: the written values are the right ranks. The iterator is not used anywhere in the code."
  },
  {
   "property": "C72",
   "status": "proved",
   "theorems": [
    "C72_grid_minimal_surface"
   ],
   "note": "Enumeration of exponent vectors proved complete."
  },
  {
   "property": "C73",
   "status": "partial",
   "theorems": [
    "C73_auto_allocation_refuted"
   ],
   "note": "False: the loops write coords[y] and coords[z] instead of coords[1], coords[2]; asked for 4 nodes only 2 distinct ones are allocated."
  },
  {
   "property": "C74",
   "status": "proved",
   "theorems": [
    "C74_window_arrives",
    "C74_send_fits"
   ],
   "note": "MPI is trusted to carry the bytes; the padding bytes after each event are arbitrary."
  },
  {
   "property": "C75",
   "status": "partial",
   "theorems": [
    "C75_null_pointer_refuted",
    "C75_null_in_vector_partial"
   ],
   "note": "False for std::list (and any element that is an uninitialised local on unpacking): a null element is read back as an uninitialised pointer. True for vectors, whose resize() zeroes the elements."
  },
  {
   "property": "C76",
   "status": "partial",
   "theorems": [
    "C76_packet_state_refuted",
    "C76_packet_state_partial"
   ],
   "note": "False: PiscesPacket::serialize_order omits byte delay, stage and port arrays, which are reset in transit. The listed members do survive."
  },
  {
   "property": "C77",
   "status": "partial",
   "theorems": [
    "C77_mean_refuted",
    "C77_mean_partial"
   ],
   "note": "False: the weight is ignored for events that lie within one epoch."
  },
  {
   "property": "C78",
   "status": "proved",
   "theorems": [
    "barrier_separates"
   ],
   "note": "Barrier is the Bruck schedule without payload."
  },
  {
   "property": "C79",
   "status": "partial",
   "theorems": [
    "ring_allgather_refuted",
    "ring_allgather_in_place_partial",
    "ring_allgather_copied_in_partial",
    "ring_allgather_terminates"
   ],
   "note": "False when the send and the result buffer differ: the ring actor never copies the own block into the result buffer. Proved for in-place use and for callers that copy their block first."
  },
  {
   "property": "C80",
   "status": "partial",
   "theorems": [
    "probe_served_partial",
    "probe_missed_refuted",
    "probe_stale_refuted"
   ],
   "note": "false as stated: a blocked probe never sees Eager1 messages and is told of messages already taken by a receive; proved when no message uses Eager1"
  },
  {
   "property": "C81",
   "status": "partial",
   "theorems": [
    "cart_convention_partial",
    "cart_row_major_refuted",
    "cart_rank_wrap_refuted"
   ],
   "note": "Refuted: first coordinate runs fastest and periodic coordinates are not reduced. Holds for one dimension and coordinates in range."
  },
  {
   "property": "C82",
   "status": "partial",
   "theorems": [
    "groups_alive_partial",
    "group_free_dangling_refuted",
    "cart_free_dangling_refuted",
    "split_dup_dangling_refuted"
   ],
   "note": "Refuted by Group_free of a used group, by freeing a Cartesian communicator and by freeing a split communicator that was duplicated; proved for histories without these."
  },
  {
   "property": "C83",
   "status": "proved",
   "theorems": [
    "group_rank_inverse",
    "translate_same_process",
    "group_incl_spec",
    "range_incl_spec"
   ],
   "note": ""
  },
  {
   "property": "C84",
   "status": "partial",
   "theorems": [
    "failed_rejected_partial",
    "failed_rejected_refuted"
   ],
   "note": "The tree search (more than four failures) rejects; the linear search gives the dense rank of a live rank: refuted."
  },
  {
   "property": "C85",
   "status": "partial",
   "theorems": [
    "type_size_correct",
    "type_extent_partial",
    "type_extent_refuted"
   ],
   "note": "Size proved for every type; extent only for gapless blocks and contiguous types of them, refuted for vectors and indexed types."
  },
  {
   "property": "C86",
   "status": "partial",
   "theorems": [
    "pack_in_bounds_partial",
    "pack_overrun_refuted"
   ],
   "note": "Proved when no vector has empty blocks; refuted for a vector of empty blocks."
  },
  {
   "property": "C87",
   "status": "partial",
   "theorems": [
    "smp_groups",
    "smp_agree",
    "smp_balanced_partial",
    "smp_balanced_refuted",
    "smp_create_stuck_refuted"
   ],
   "note": "Proved when every rank has company on its node; otherwise the ranks that have it wait for ever in the allgather. The balance flag is right on node owners and always set on the other ranks."
  },
  {
   "property": "C88",
   "status": "partial",
   "theorems": [
    "int_ops_correct_partial",
    "int_ops_order_independent",
    "int_ops_complete_refuted"
   ],
   "note": "All operators except MPI_BXOR, which is never registered (MPI_BOR is stored twice)."
  },
  {
   "property": "C89",
   "status": "proved",
   "theorems": [
    "packets_neither_lost_nor_copied",
    "at_rest_all_delivered",
    "comes_to_rest"
   ],
   "note": "Timing is abstracted to arbitrary interleaving, so the links may deliver in any order."
  },
  {
   "property": "C90",
   "status": "partial",
   "theorems": [
    "large_messages_use_network_partial",
    "large_messages_use_network_refuted"
   ],
   "note": "Holds below 2^31 bytes. The length is converted to int, so longer messages are taken for negligible."
  },
  {
   "property": "C91",
   "status": "partial",
   "theorems": [
    "signal_wakes_waiter_refuted",
    "signal_without_waiter_refuted",
    "mutex_resume_partial"
   ],
   "note": "Both halves refuted: waiting threads are kept per mutex, not per condition, and a signal without waiters aborts. Proved: a woken waiter gets the mutex."
  },
  {
   "property": "C92",
   "status": "partial",
   "theorems": [
    "cascade_symmetric_partial",
    "cascade_symmetric_refuted",
    "cascade_ports_consistent",
    "cascade_ports_distinct_refuted"
   ],
   "note": "Symmetric for an even number of group connections, refuted for odd; the same cable may be listed twice, but one port never leads to two places."
  },
  {
   "property": "C93",
   "status": "proved",
   "theorems": [
    "cascade_groups_joined"
   ],
   "note": ""
  },
  {
   "property": "C94",
   "status": "proved",
   "theorems": [
    "gather_collects",
    "gather_early"
   ],
   "note": ""
  },
  {
   "property": "C95",
   "status": "partial",
   "theorems": [
    "scatter_delivers_partial",
    "scatter_early_partial",
    "scatter_refuted"
   ],
   "note": "Proved for three or more ranks when the root is 0 or odd. False in every other case: with two ranks, or an even root other than 0, complete executions exist and in all of them one rank (rank 1 for root 0, otherwise the root) ends with its result buffer untouched."
  },
  {
   "property": "C96",
   "status": "partial",
   "theorems": [
    "reduce_reduces_partial",
    "reduce_terminates",
    "reduce_refuted"
   ],
   "note": "Proved for root 0, for every number of ranks that is not one short of a power of two, and for single elements; termination for all. False for 2^w-1 ranks, a root other than 0 and two or more elements: the second half of the result is the contribution of rank 1 alone in every completed execution."
  },
  {
   "property": "C97",
   "status": "partial",
   "theorems": [
    "scan_partial",
    "scan_with_copies",
    "scan_refuted"
   ],
   "note": "Refuted for four or more ranks: init() runs initDag before initBuffers, so recv_buffer_ is null in initDag and the copies of the result into the send buffer are never created; rank r only gets the contributions of r, r-1, r-2, r-4, .... scan_partial gives that result for all sizes (right for the first three ranks); scan_with_copies shows that the schedule would be right if recv_buffer_ were set."
  },
  {
   "property": "C98",
   "status": "proved",
   "theorems": [
    "allgatherv_delivers_all_blocks",
    "allgatherv_terminates",
    "allgatherv_sizes_agree"
   ],
   "note": "Bruck algorithm with block sizes; rounds run asynchronously as in C27. The displacements of MPI_Allgatherv are not part of this layer."
  },
  {
   "property": "C99",
   "status": "proved",
   "theorems": [
    "snappr_port_keeps_packets_and_credits"
   ],
   "note": "congestion_ = true path; uint64 wrap-around of times is not modelled."
  }
 ]
}