{"id": "C01", "title": "Serial execution order is a function of event keys", "statement": "A serial simulation executes pending events in strictly increasing (time, link, sequence number) order, whatever the order in which they were scheduled.", "quantifier": "every multiset of pending events, every insertion order, every handler that schedules new events not before the current event", "why_tests_cant": "tests fix one insertion order; ordering bugs show only on rare ties between links and times", "anchors": ["sstmac/common/event_manager.h: EventCompare, EventManager::event_queue_", "sstmac/common/event_manager.cc: EventManager::runEvents, EventManager::schedule"]}
{"id": "C02", "title": "No event is lost or executed twice", "statement": "Every event scheduled before the stop time is executed exactly once before the run returns; nothing else is executed.", "quantifier": "every finite set of events and every handler, every stop time", "why_tests_cant": "a dropped event is silent (std::set::insert ignores an equal key) and needs a collision of time, link and sequence number", "anchors": ["sstmac/common/event_manager.cc: EventManager::schedule, runEvents, scheduleStop, stop", "sstmac/common/event_scheduler.cc: allocateSelfLinkId, sendExecutionEvent"]}
{"id": "C03", "title": "Simulated time never goes backwards and events run at their due time", "statement": "Throughout a run, the clock observed by event handlers is nondecreasing and each handler observes exactly the arrival time its event was scheduled for.", "quantifier": "every execution of every handler with nonnegative delays", "why_tests_cant": "monotonicity is a statement about all executions of an unbounded loop", "anchors": ["sstmac/common/event_manager.cc: EventManager::runEvents", "sstmac/common/event_scheduler.cc: sendDelayedExecutionEvent, LocalLink::send"]}
{"id": "C04", "title": "Conservative parallel windows never deliver into the past", "statement": "With two or more workers exchanging events over links of latency at least the lookahead, no worker ever receives an event whose time is earlier than its own clock.", "quantifier": "every number of workers, every lookahead > 0, every handler and every sequence of synchronisation windows", "why_tests_cant": "the violation depends on relative progress of workers, which a test schedule samples only sparsely", "anchors": ["sstmac/backends/native/clock_cycle_event_container.cc: ClockCycleEventMap::run, receiveIncomingEvents", "sstmac/common/event_manager.cc: runEvents, scheduleIncoming, registerPending"]}
{"id": "C05", "title": "Parallel and serial runs simulate the same thing", "statement": "Splitting the simulated components over any number of workers gives every component exactly the sequence of (time, link, sequence, event) that the serial run gives it.", "quantifier": "every assignment of components to workers, every model whose cross-worker latency is at least the lookahead and whose setup phase sends only within a worker (C57 is about setup sends across ranks)", "why_tests_cant": "equivalence of two unbounded executions for all models is not a finite check", "anchors": ["sstmac/backends/native/clock_cycle_event_container.cc: run", "sstmac/common/event_manager.cc: EventManager::runEvents", "sstmac/common/event_scheduler.cc: LocalLink::send, IpcLink::send"]}
{"id": "C06", "title": "Adding then subtracting a duration restores the timestamp", "statement": "For a timestamp t and durations a, b: (t+a)-a = t, (t+a)+b = t+(a+b), and t+a >= t as long as the total stays inside the 64-bit tick range.", "quantifier": "every pair of epochs and ticks, every duration", "why_tests_cant": "the boundary cases (ticks equal to the subtrahend, carry between epochs) are single points in a 2^128 input space", "anchors": ["sstmac/common/timestamp.h: operator+, operator-, Timestamp", "sstmac/common/timestamp.cc: Timestamp::operator+="]}
{"id": "C07", "title": "Timestamp comparisons form one total order", "statement": "The six comparison operators on timestamps agree with one total order on (epoch, tick): <= is the negation of >, >= of <, and exactly one of <, ==, > holds.", "quantifier": "every pair of timestamps", "why_tests_cant": "the operators are written separately; disagreement needs particular epoch/tick combinations", "anchors": ["sstmac/common/timestamp.h: operator<, operator<=, operator>, operator>=, operator==, operator!="]}
{"id": "C08", "title": "Durations divide rounding up", "statement": "Dividing a duration by a nonzero interval yields the least count whose multiple covers the duration.", "quantifier": "every pair of 64-bit durations", "why_tests_cant": "truncation to a narrower type appears only for quotients above 2^32", "anchors": ["sstmac/common/timestamp.h: TimeDelta::divideUp"]}
{"id": "C09", "title": "Serialize then deserialize is the identity", "statement": "An object tree written by the packer and read back by the unpacker is equal to the original, and reading consumes exactly the bytes written.", "quantifier": "every value built from integers, strings, fixed buffers, vectors, lists, sets, maps, pairs and nested combinations", "why_tests_cant": "nested container shapes are unbounded", "anchors": ["sprockit/sprockit/serialize.h", "sprockit/sprockit/serializer.h: pvt_size, pvt_pack, pvt_unpack", "sprockit/sprockit/serialize_vector.h", "sprockit/sprockit/serialize_map.h", "sprockit/sprockit/serialize_string.h", "sprockit/sprockit/serialize_list.h", "sprockit/sprockit/serialize_set.h"]}
{"id": "C10", "title": "The size pass predicts the packed length exactly", "statement": "The byte count computed by the sizing pass equals the bytes the packing pass writes, so packing into a buffer of that size never overruns it.", "quantifier": "every serializable value, including null and non-null raw buffers", "why_tests_cant": "one missed branch in the sizer corrupts memory only for the shape that reaches it", "anchors": ["sprockit/sprockit/serializer.h: ser_sizer, ser_packer", "sprockit/sprockit/serializer.cc"]}
{"id": "C11", "title": "Parallel send buffers never lose or overlap messages", "statement": "Space handed out by an inter-rank send buffer is 64-bit aligned, disjoint from every other allocation, lies inside the buffer that is finally sent, and messages come out in the order they went in, even when allocations overflow into backup buffers.", "quantifier": "every sequence of allocation sizes and every initial capacity, including overflow into the backup buffers", "why_tests_cant": "overflow paths depend on cumulative sizes over a whole window", "anchors": ["sstmac/backends/common/parallel_runtime.h: CommBuffer, align64", "sstmac/backends/common/parallel_runtime.cc: CommBuffer::allocateSpace, copyToBackup, reset"]}
{"id": "C12", "title": "Every switch is assigned to one valid worker", "statement": "Each partitioning strategy assigns every switch id to exactly one (rank, thread) inside the configured machine; block partitions are contiguous and balanced.", "quantifier": "every number of switches, ranks and threads per rank, every occupancy set", "why_tests_cant": "remainder handling depends on divisibility relations of three parameters", "anchors": ["sstmac/backends/common/sim_partition.cc: BlockPartition::partitionSwitches, OccupiedBlockPartition::partitionSwitches"]}
{"id": "C13", "title": "Torus coordinates and switch ids are inverse", "statement": "Converting a switch id to coordinates and back is the identity, and every in-range coordinate vector is the coordinates of exactly one switch id.", "quantifier": "every number of dimensions and every list of dimension sizes", "why_tests_cant": "unit tests run a handful of inputs; dimension lists are unbounded", "anchors": ["sstmac/hardware/topology/torus.cc: Torus::switchAddr, Torus::computeCoords, switchCoords"]}
{"id": "C14", "title": "Torus wiring is symmetric", "statement": "Every cable leaving a switch on some port arrives at a neighbour on a port whose own cable leads back, and every input port receives exactly one cable.", "quantifier": "every dimension list and every switch", "why_tests_cant": "the special cases are dimensions of size one and two, on any axis", "anchors": ["sstmac/hardware/topology/torus.cc: Torus::connectedOutports"]}
{"id": "C15", "title": "Torus minimal routing delivers in exactly the minimal distance", "statement": "A packet forwarded hop by hop by dimension-order routing reaches its destination switch after exactly the number of hops the topology reports as minimal distance.", "quantifier": "every dimension list, every source and destination switch", "why_tests_cant": "delivery is a statement about all routes of all sizes", "anchors": ["sstmac/hardware/router/torus_routing.cc: TorusMinimalRouter::route, minimalRoute, upPath, downPath", "sstmac/hardware/topology/torus.cc: minimalDistance, shortestPathPositive"]}
{"id": "C16", "title": "Torus minimal routing cannot deadlock", "statement": "The virtual channels used by minimal torus routing admit no cyclic wait: there is a rank on (link, virtual channel) that strictly increases along every packet's path.", "quantifier": "every dimension list and every pair of packets", "why_tests_cant": "deadlock freedom quantifies over all cycles of channels", "anchors": ["sstmac/hardware/router/torus_routing.cc: upPath, downPath, minimalRoute"]}
{"id": "C17", "title": "Valiant torus routing always delivers", "statement": "Non-minimal torus routing visits its random intermediate switch and then the destination, ejecting after at most the sum of the two minimal distances.", "quantifier": "every source, destination and random intermediate switch on every torus", "why_tests_cant": "unit tests run a handful of inputs; the random intermediate is unconstrained", "anchors": ["sstmac/hardware/router/torus_routing.cc: TorusValiantRouter::route"]}
{"id": "C18", "title": "Hypercube routing delivers in Hamming distance", "statement": "Minimal hypercube routing reaches the destination switch in exactly as many hops as there are differing coordinates, which is what the topology reports.", "quantifier": "every dimension list, every source and destination", "why_tests_cant": "unit tests run a handful of inputs; sizes unbounded", "anchors": ["sstmac/hardware/topology/hypercube.cc: minimalDistance, connectedOutports", "sstmac/hardware/router/hypercube_routing.cc: HypercubeMinimalRouter::route"]}
{"id": "C19", "title": "Fat-tree wiring is symmetric", "statement": "In a fat tree every up-cable's far end is a down-port whose own cable leads back to the same switch and port, between leaf and aggregation and between aggregation and core.", "quantifier": "every accepted fat-tree parameter set", "why_tests_cant": "the port formulas involve three integer divisions; mismatch needs specific ratios", "anchors": ["sstmac/hardware/topology/fat_tree.cc: FatTree::connectedOutports, checkInput"]}
{"id": "C20", "title": "Fat-tree routing goes up then down and delivers", "statement": "Whatever up-ports the router picks, a packet climbs to a common ancestor and descends to the destination leaf; it never turns up again after going down.", "quantifier": "every accepted fat tree, every source/destination leaf and every choice of up-port", "why_tests_cant": "choices are adaptive: any combination may occur", "anchors": ["sstmac/hardware/router/fat_tree_router.cc: FatTreeRouter::route, getNextUpPort, getNextDownPort"]}
{"id": "C21", "title": "Dragonfly global cables are symmetric", "statement": "If a router reports a global cable to another router, the other router reports a cable back, with matching in/out ports.", "quantifier": "every dragonfly shape accepted by the circulant and all-to-all wirings", "why_tests_cant": "modular wiring formulas for all group counts", "anchors": ["sstmac/hardware/topology/dragonfly.cc: CirculantGroupWiring, AllToAllGroupWiring, SingleLinkGroupWiring, Dragonfly::connectedOutports"]}
{"id": "C22", "title": "Dragonfly minimal routing delivers within three hops on increasing virtual channels", "statement": "Minimal dragonfly routing reaches the destination switch within local-global-local hops and the virtual channel index counts global hops, so it never decreases along the path.", "quantifier": "every dragonfly with a sound global wiring, every source/destination", "why_tests_cant": "unit tests run a handful of inputs; for all shapes", "anchors": ["sstmac/hardware/router/dragonfly_routing.cc: DragonflyMinimalRouter::route, routeToGroup"]}
{"id": "C23", "title": "Cascade routing agrees with cascade wiring", "statement": "When the cascade router sends a packet to another group, it sends it to a router in the local group that really has a cable to that group.", "quantifier": "every accepted cascade shape, every source and destination group", "why_tests_cant": "wiring and routing use two independently written formulas", "anchors": ["sstmac/hardware/topology/cascade.cc: xy_connected_to_group, xygDirToGroup, connectedOutports"]}
{"id": "C24", "title": "Collective schedules run every action exactly once, after its predecessors", "statement": "The collective engine starts each action exactly once and only after all actions it depends on completed; the collective reports completion exactly once, when all actions are complete.", "quantifier": "every non-empty dependency graph without cycles, every completion order", "why_tests_cant": "completion orders grow factorially with the graph", "anchors": ["sumi/collective_actor.cc: DagCollectiveActor::start, startAction, clearAction, clearDependencies, addDependency, checkCollectiveDone"]}
{"id": "C25", "title": "Collective message ids identify their action", "statement": "The id put on the wire for a collective message determines the action type, round and partner, and distinct actions have distinct ids.", "quantifier": "every action type, round and partner in the supported range", "why_tests_cant": "the ids collide only once rounds or partners exceed a packing limit", "anchors": ["sumi/collective_actor.h: Action::messageId, Action::details"]}
{"id": "C26", "title": "The virtual-rank folding is a bijection", "statement": "Folding an arbitrary number of ranks onto a power of two assigns every virtual rank to exactly one real rank, each real rank owning one or two virtual ranks.", "quantifier": "every number of ranks", "why_tests_cant": "unit tests run a handful of inputs; for all sizes", "anchors": ["sumi/collective_actor.cc: VirtualRankMap::realToVirtual, virtualToReal, RecursiveDoubling::computeTree"]}
{"id": "C27", "title": "Bruck allgather delivers every block to every rank in place", "statement": "After the allgather schedule runs, every rank's receive buffer holds rank j's contribution in block j.", "quantifier": "every number of ranks, every block size and content", "why_tests_cant": "the final rotation depends on non-power-of-two remainders", "anchors": ["sumi/allgather.cc: BruckActor::initDag, initBuffers, finalizeBuffers", "sumi/collective_actor.cc: RecursiveDoubling"]}
{"id": "C28", "title": "Bruck alltoall is a transpose", "statement": "After the alltoall schedule runs, block j of rank i's receive buffer is block i of rank j's send buffer.", "quantifier": "every number of ranks, every content", "why_tests_cant": "index shuffles depend on bits of all block indices", "anchors": ["sumi/alltoall.cc: BruckAlltoallActor::initDag, shuffle, numSendBlocks, finalizeBuffers"]}
{"id": "C29", "title": "Allreduce gives every rank the reduction of all contributions", "statement": "After allreduce every rank's buffer equals the reduction of all ranks' send buffers element by element, for any associative and commutative operator.", "quantifier": "every number of ranks, every element count, every operator", "why_tests_cant": "recursive halving with folded ranks behaves differently for each remainder", "anchors": ["sumi/allreduce.cc: WilkeAllreduceActor::initDag, finalizeBuffers", "sumi/collective_actor.cc: VirtualRankMap"]}
{"id": "C30", "title": "Broadcast reaches every rank exactly once", "statement": "The broadcast tree rooted at any rank sends each non-root rank the data exactly once, from a rank that already has it.", "quantifier": "every number of ranks and every root", "why_tests_cant": "unit tests run a handful of inputs; for all sizes and roots", "anchors": ["sumi/bcast.cc: BinaryTreeBcastActor::initDag, initRoot, initInternal, initChild"]}
{"id": "C31", "title": "Reverse mapping from physical to dense rank is exact", "statement": "Looking up the dense rank of a live sparse rank and back is the identity for every set of failed ranks.", "quantifier": "every number of ranks and every set of dead ranks", "why_tests_cant": "the search has separate linear and tree cases", "anchors": ["sumi/dense_rank_map.cc: linearFindRank, treeFindRank, sparseRank, denseRank"]}
{"id": "C32", "title": "MPI messages between two ranks are processed in send order", "statement": "However the network reorders messages from one sender, the receiver processes them exactly in the order they were sent, none lost or repeated.", "quantifier": "every permutation of arrivals", "why_tests_cant": "permutations grow factorially", "anchors": ["sumi-mpi/mpi_queue/mpi_queue.cc: MpiQueue::send, incomingPt2ptMessage, handlePt2ptMessage"]}
{"id": "C33", "title": "MPI matching is non-overtaking", "statement": "Two messages from one sender that both match a receive are received in the order sent, and a message matches the earliest posted matching receive; no message or receive is matched twice.", "quantifier": "every interleaving of posted receives (with wildcards) and arrivals", "why_tests_cant": "interleavings are unbounded", "anchors": ["sumi-mpi/mpi_queue/mpi_queue.cc: findMatchingRecv, recv, incomingMessage", "sumi-mpi/mpi_queue/mpi_queue_recv_request.cc: matches"]}
{"id": "C34", "title": "New communicator ids agree across members and are fresh", "statement": "All ranks creating a communicator compute the same id, and the id is in use by none of them.", "quantifier": "every history of communicator creations over arbitrary member sets", "why_tests_cant": "histories over subsets of ranks are unbounded", "anchors": ["sumi-mpi/mpi_comm/mpi_comm_factory.cc: commNewIdAgree, commCreate, commSplit"]}
{"id": "C35", "title": "Communicator split orders ranks by key then old rank", "statement": "Splitting a communicator partitions the ranks by color; each new group is ordered by (key, old rank), and all members of a color compute the same group.", "quantifier": "every assignment of colors and keys", "why_tests_cant": "stable ordering for all key assignments", "anchors": ["sumi-mpi/mpi_comm/mpi_comm_factory.cc: MpiCommFactory::commSplit"]}
{"id": "C36", "title": "Cartesian communicator ranks and coordinates are inverse; shift finds neighbours", "statement": "Converting rank to coordinates and back is the identity; shift by any displacement returns the neighbour rank, wrapping on periodic axes and MPI_PROC_NULL off the edge of others.", "quantifier": "every grid shape, every rank, axis and displacement", "why_tests_cant": "unit tests run a handful of inputs; for all grids", "anchors": ["sumi-mpi/mpi_comm/mpi_comm_cart.cc: set_coords, rank, shift"]}
{"id": "C37", "title": "Derived datatypes pack and unpack consistently", "statement": "Packing a buffer with a derived datatype and unpacking into another restores exactly the elements selected by the type map, at the offsets MPI defines, touching no other byte.", "quantifier": "every nesting of contiguous, vector, hvector, indexed and struct types, every count", "why_tests_cant": "the space of nested type maps is unbounded", "anchors": ["sumi-mpi/mpi_types/mpi_type.cc: pack_action_vector, pack_action_indexed, packSend, unpack_recv", "sumi-mpi/mpi_api_type.cc: typeContiguous, typeVector, doTypeHindexed"]}
{"id": "C38", "title": "Collective tags are unique among concurrently active collectives", "statement": "Two collectives on the same or different communicators never use the same tag while both may be in flight.", "quantifier": "every sequence of collective calls on every set of communicators", "why_tests_cant": "repetition occurs only after 2^16 calls", "anchors": ["sumi-mpi/mpi_comm/mpi_comm.cc: nextCollectiveTag"]}
{"id": "C39", "title": "Link credits are conserved", "statement": "Credits available at a sender plus bytes in flight or buffered downstream always equal the configured buffer size; a sender never sends more than the receiver can hold.", "quantifier": "every sequence of packet arrivals and credit returns", "why_tests_cant": "the invariant ranges over all schedules", "anchors": ["sstmac/hardware/pisces/pisces_buffer.cc: handleCredit, handlePayload, setOutput", "sstmac/hardware/pisces/pisces_crossbar.cc: PiscesNtoMQueue", "sstmac/hardware/pisces/pisces_sender.cc"]}
{"id": "C40", "title": "A queued packet is eventually sent", "statement": "If every packet fits the configured buffers, a link never stays idle with packets queued while its credits are all home.", "quantifier": "every schedule of arrivals and credit returns, every accepted configuration", "why_tests_cant": "liveness over all schedules", "anchors": ["sstmac/hardware/pisces/pisces_buffer.cc: handleCredit", "sstmac/hardware/pisces/pisces_crossbar.cc: PiscesNtoMQueue::handleCredit", "sstmac/hardware/pisces/pisces_switch.cc: PiscesSwitch::PiscesSwitch"]}
{"id": "C41", "title": "Messages are cut into packets and reassembled exactly once", "statement": "Injecting a message yields packets of at most the MTU whose sizes add up to the message, and the receiver signals completion exactly once, on the last packet to arrive, under any interleaving with other messages.", "quantifier": "every message size, MTU and arrival interleaving", "why_tests_cant": "interleavings of packets of many flows are unbounded", "anchors": ["sstmac/hardware/pisces/pisces_nic.cc: inject", "sstmac/hardware/common/recv_cq.cc: RecvCQ::recv"]}
{"id": "C42", "title": "Arbitrated links never exceed their bandwidth", "statement": "The packets granted by a bandwidth arbitrator occupy disjoint time intervals of length size/bandwidth, each starting no earlier than the packet arrived, in arrival order.", "quantifier": "every sequence of arrivals and sizes", "why_tests_cant": "needs all arrival patterns", "anchors": ["sstmac/hardware/pisces/pisces_arbitrator.cc: PiscesSimpleArbitrator::arbitrate, PiscesCutThroughArbitrator"]}
{"id": "C43", "title": "Simulated mutexes exclude", "statement": "At most one thread holds a mutex; waiting threads acquire it in FIFO order; a thread returning from a condition wait holds the mutex.", "quantifier": "every interleaving of lock, trylock, unlock, wait and signal by any number of threads", "why_tests_cant": "interleavings are unbounded", "anchors": ["sstmac/libraries/pthread/sstmac_pthread.cc: SSTMAC_pthread_mutex_lock, mutex_trylock, mutex_unlock, cond_wait, cond_signal", "sstmac/software/process/thread.cc: stdMutex"]}
{"id": "C44", "title": "No compute node is given to two running jobs", "statement": "At any time the nodes held by running jobs are pairwise disjoint and disjoint from the free pool, and when all jobs finish every node is free again.", "quantifier": "every sequence of launch requests and completions, for every allocation strategy", "why_tests_cant": "histories of requests are unbounded", "anchors": ["sstmac/software/launch/job_launcher.cc: handleLaunchRequest, cleanupApp", "sstmac/software/launch/first_available_allocation.cc"]}
{"id": "C45", "title": "Every rank of a job is placed on exactly one allocated node", "statement": "Task mapping assigns each of the nproc ranks to one node of the allocation with at most procs-per-node ranks per node, or refuses.", "quantifier": "every nproc, procs-per-node and allocation", "why_tests_cant": "unit tests run a handful of inputs; remainders matter", "anchors": ["sstmac/software/launch/block_task_mapper.cc: mapRanks", "sstmac/software/launch/round_robin_task_mapper.cc: mapRanks", "sstmac/software/launch/task_mapper.cc: validateNproc"]}
{"id": "C46", "title": "Cores are held by at most one thread", "statement": "A core reserved by a running thread is not given to another before it is released, reserved plus free cores equal the total, and a thread blocked for cores is resumed when they become free.", "quantifier": "every sequence of reservations and releases", "why_tests_cant": "sequences unbounded", "anchors": ["sstmac/software/process/simple_compute_scheduler.cc: reserveCores, releaseCores", "sstmac/software/process/cpuset_compute_scheduler.cc: reserveCore, releaseCore, allocateCores"]}
{"id": "C47", "title": "Time-quantum statistics conserve time", "statement": "The time attributed to the epochs of a trace for a state equals the total time the thread spent in that state, and no epoch outside the report is written.", "quantifier": "every list of events and every epoch length", "why_tests_cant": "boundary coincidences are single points", "anchors": ["sstmac/common/stats/ftq.cc: FTQAccumulator::dump"]}
{"id": "C48", "title": "Histogram bins count every sample once", "statement": "Each sample within the configured range increments exactly one existing bin, the one whose interval contains it; samples outside are not counted.", "quantifier": "every sample sequence and every histogram configuration", "why_tests_cant": "the upper boundary is a single value", "anchors": ["sstmac/common/stats/stat_histogram.h: StatHistogram::addData_impl"]}
{"id": "C49", "title": "Job start is broadcast to every rank exactly once", "statement": "The fan-out tree used to start a job's processes reaches each rank exactly once from rank 0.", "quantifier": "every number of ranks", "why_tests_cant": "unit tests run a handful of inputs; for all sizes", "anchors": ["sstmac/software/launch/job_launcher.h: OutcastIterator, IncastIterator", "sstmac/software/process/operating_system.cc: outcastAppStart"]}
{"id": "C50", "title": "Automatic grids use every rank", "statement": "The automatically generated three-dimensional grid for n processes has exactly n cells.", "quantifier": "every n >= 1", "why_tests_cant": "unit tests run a handful of inputs; for all n; factorisation behaviour differs per n", "anchors": ["sstmac/common/cartgrid.cc: genCartGrid, primefactor_i"]}
{"id": "C51", "title": "MPI test and wait calls complete a request once and report it", "statement": "Test/wait families report exactly the completed requests, set each reported non-persistent handle to null, and leave incomplete requests untouched; testall consumes nothing unless all are complete.", "quantifier": "every array of requests with any completion pattern", "why_tests_cant": "patterns are exponential in the array size", "anchors": ["sumi-mpi/mpi_api_test.cc", "sumi-mpi/mpi_api_wait.cc"]}
{"id": "C52", "title": "pthread_once runs its routine once", "statement": "However many threads call pthread_once on one control, the routine runs exactly once.", "quantifier": "every call sequence", "why_tests_cant": "sequence property", "anchors": ["sstmac/libraries/pthread/sstmac_pthread.cc: SSTMAC_pthread_once"]}
{"id": "C53", "title": "Communicator rank translations are inverse", "statement": "For shifted, rotated, sub-range and index communicators, translating a communicator rank to a global rank and back is the identity, and members map injectively into the parent.", "quantifier": "every size and offset", "why_tests_cant": "unit tests run a handful of inputs; for all sizes", "anchors": ["sumi/communicator.h", "sumi/communicator.cc: RotateCommunicator, SubrangeCommunicator"]}
{"id": "C54", "title": "Collective messages that arrive early are not lost", "statement": "A message for a collective a rank has not started yet is kept and delivered to it when it starts, exactly once, and collective completion is reported exactly once.", "quantifier": "every interleaving of local starts and remote arrivals", "why_tests_cant": "interleavings are unbounded", "anchors": ["sumi/sim_transport.cc: CollectiveEngine::incoming, startCollective, deliverPending, finishCollective"]}
{"id": "C55", "title": "MAXLOC and MINLOC are order independent", "statement": "Reducing (value, index) pairs with MPI_MAXLOC/MPI_MINLOC gives the extreme value with the smallest index attaining it, in any combination order.", "quantifier": "every list of pairs and every reduction tree", "why_tests_cant": "reduction trees are unbounded", "anchors": ["sumi-mpi/mpi_api_type.cc: MaxLoc/MinLoc pair ops", "sumi/comm_functions.h"]}
{"id": "C56", "title": "Pooled allocation never hands out overlapping live chunks", "statement": "Chunks returned by the pooled allocator are cache-line aligned, inside an allocated slab, and disjoint from every chunk not yet freed.", "quantifier": "every sequence of allocations and frees on every thread, any slab address", "why_tests_cant": "address-dependent alignment cases", "anchors": ["sprockit/sprockit/thread_safe_new.h: allocate, grow, operator delete"]}
{"id": "C57", "title": "Events sent across ranks during setup are executed", "statement": "An event that a component sends during setup to a component on another rank is executed by the parallel run exactly as by the serial run.", "quantifier": "every model, every assignment of components to ranks, every set of setup sends", "why_tests_cant": "needs a parallel run whose only pending event is the one sent in setup", "anchors": ["sstmac/common/event_manager.cc: EventManager::runEvents (min_ipc_time_ reset)", "sstmac/backends/native/clock_cycle_event_container.cc: ClockCycleEventMap::run, receiveIncomingEvents"]}
{"id": "C58", "title": "Time units are exact", "statement": "One simulated second is exactly 10^18 attoseconds worth of ticks for every tick spacing the user may configure.", "quantifier": "every tick spacing", "why_tests_cant": "only the default spacing is exercised by tests", "anchors": ["sstmac/common/timestamp.cc: TimeDelta::initStamps"]}
{"id": "C59", "title": "Valiant torus routing cannot deadlock", "statement": "The four virtual channels of Valiant torus routing admit no cyclic wait between packets, whatever intermediate switches are drawn.", "quantifier": "every dimension list, every set of packets and every choice of intermediate switches", "why_tests_cant": "deadlock freedom quantifies over all cycles of channels and all random choices", "anchors": ["sstmac/hardware/router/torus_routing.cc: TorusValiantRouter::route, TorusMinimalRouter::upPath, downPath"]}
{"id": "C60", "title": "Fully connected and star networks deliver", "statement": "In a fully connected network every pair of switches is joined by a cable whose two ends agree on their ports, and the minimal router delivers every packet on its node's port in at most one hop; in a star the single switch ejects every packet on its node's port.", "quantifier": "every number of switches, every concentration, every source switch and destination node", "why_tests_cant": "unit tests run a handful of inputs; sizes unbounded", "anchors": ["sstmac/hardware/topology/fully_connected.cc: connectedOutports, endpointsConnectedToInjectionSwitch", "sstmac/hardware/topology/star.cc", "sstmac/hardware/router/router.cc: FullyConnectedMinimalRouter::route, StarMinimalRouter::route"]}
{"id": "C61", "title": "Progressive adaptive hypercube routing delivers and cannot deadlock", "statement": "Whatever the queue lengths and random numbers, every packet under progressive adaptive routing on a 3-d hypercube is delivered on its node's port within six hops, uses virtual channel k on its k-th hop (so stays within the six configured), and the channels admit no cyclic wait.", "quantifier": "every size the header fields can hold, every source and destination, every adaptive behaviour of every switch", "why_tests_cant": "the adaptive decisions range over all functions of switch and header; deadlock quantifies over all cycles of channels", "anchors": ["sstmac/hardware/router/hypercube_routing.cc: HypercubeParRouter::route"]}
{"id": "C62", "title": "Fat-tree hop counts are the cable distance", "statement": "The number of hops a fat tree reports between two leaf switches is the length of the shortest cable path between them.", "quantifier": "every accepted fat tree and every pair of leaf switches", "why_tests_cant": "unit tests run a handful of inputs; quantifies over all cable paths", "anchors": ["sstmac/hardware/topology/fat_tree.h: FatTree::minimalDistance, aggSubtree, numHopsToNode"]}
{"id": "C63", "title": "Every node hangs off exactly one switch port", "statement": "In every modelled topology each node id below the node count is listed on exactly one port of exactly one switch, no other node is listed, two nodes never share a port and no network cable leaves by a node's port.", "quantifier": "every accepted torus, hypercube, fully connected network, star, fat tree and dragonfly, every concentration", "why_tests_cant": "unit tests run a handful of inputs; a bad base port or node count shows only for particular sizes", "anchors": ["sstmac/hardware/topology/torus.cc, hypercube.cc, fully_connected.cc, star.cc, fat_tree.cc, dragonfly.cc: endpointsConnectedToInjectionSwitch"]}
{"id": "C64", "title": "Dragonfly hop counts are the cable distance", "statement": "The number of hops a dragonfly reports between two switches is the length of the shortest cable path between them.", "quantifier": "every dragonfly in which all groups are connected, every pair of switches", "why_tests_cant": "unit tests run a handful of inputs; quantifies over all cable paths", "anchors": ["sstmac/hardware/topology/dragonfly.cc: Dragonfly::minimalDistance"]}
{"id": "C65", "title": "Dragonfly Valiant and UGAL routing deliver within the configured virtual channels", "statement": "Whatever the queue lengths and random draws, every packet under Valiant or UGAL routing reaches its node's port within six hops, uses virtual channel k on its k-th hop, and no cyclic wait between channels is possible.", "quantifier": "every dragonfly with three or more groups in which all groups are connected, every source, destination and adaptive behaviour", "why_tests_cant": "the decisions range over all functions of switch and header; deadlock quantifies over all cycles of channels", "anchors": ["sstmac/hardware/router/dragonfly_routing.cc: DragonflyValiantRouter, DragonflyUGALRouter"]}
{"id": "C66", "title": "Dragonfly rotate routing delivers within four hops", "statement": "Every packet under rotate routing reaches its node's port within four hops, on virtual channels 0, 1, 2, 3 in that order, without cyclic waits, whatever the state of the rotating counters.", "quantifier": "every dragonfly in which all groups are connected and each router has a global cable", "why_tests_cant": "unit tests run a handful of inputs; the counters can be in any state", "anchors": ["sstmac/hardware/router/dragonfly_routing.cc: DragonflyRotateRouter::route"]}
{"id": "C67", "title": "Dragonfly progressive adaptive routing stays within its virtual channels", "statement": "Whatever the queue lengths and random draws, every packet under progressive adaptive routing is delivered and never asks for a virtual channel the router does not have (numVC = 6).", "quantifier": "every dragonfly with three or more groups in which all groups are connected, every source, destination and adaptive behaviour", "why_tests_cant": "the offending path needs a particular sequence of adaptive decisions", "anchors": ["sstmac/hardware/router/dragonfly_routing.cc: DragonflyPARRouter::route, DragonflyValiantRouter constructor"]}
{"id": "C68", "title": "The node-to-rank table is the inverse of the placement", "statement": "For every node of the machine, the list of ranks recorded for it is exactly the ranks placed on it, in increasing order.", "quantifier": "every placement and every node", "why_tests_cant": "unit tests run a handful of inputs; placements are arbitrary lists; a test fixes one.", "anchors": ["sstmac/software/launch/launch_request.cc: indexAllocation", "sstmac/software/launch/task_mapping.h: nodeToRanks"]}
{"id": "C69", "title": "The exclusive launcher runs one job at a time, in request order", "statement": "With the exclusive launcher at most one job runs at any time, jobs start in the order they were requested, no request is dropped, and a request waits only while another job runs.", "quantifier": "every sequence of requests and completions", "why_tests_cant": "unit tests run a handful of inputs; the queue can hold any number of requests and stops can come at any time.", "anchors": ["sstmac/software/launch/job_launcher.cc: ExclusiveJoblauncher::handleLaunchRequest, stopEventReceived"]}
{"id": "C70", "title": "Allocators return exactly the nodes asked for", "statement": "An allocator that succeeds returns the requested number of distinct nodes, all of them available.", "quantifier": "every allocator, every request size and every set of free nodes", "why_tests_cant": "unit tests run a handful of inputs; free sets are arbitrary subsets of the machine left behind by earlier jobs.", "anchors": ["sstmac/software/launch/first_available_allocation.cc: allocate", "sstmac/software/launch/random_allocation.cc: allocate", "sstmac/software/launch/stride_allocation.cc: allocate", "sstmac/software/launch/greedy_dfly_allocation.cc: allocate", "sstmac/software/launch/cart_allocation.cc: allocate"]}
{"id": "C71", "title": "The fan-in tree is the mirror of the fan-out tree", "statement": "The fan-in iterator tells each rank to receive from exactly the ranks it would start in the fan-out and to send to the rank that would start it, with correct counts.", "quantifier": "every number of ranks and every rank", "why_tests_cant": "unit tests run a handful of inputs; the tree shape depends on all bits of the rank and of the size.", "anchors": ["sstmac/software/launch/job_launcher.h: IncastIterator"]}
{"id": "C72", "title": "Automatic grids have the least surface", "statement": "For every task count the automatically generated grid has the smallest surface (sum of the three pairwise products) of all boxes with that many cells, whether the count has one, two, three or more prime factors.", "quantifier": "for all n >= 1 and all factorizations n = a*b*c", "why_tests_cant": "unit tests run a handful of inputs; the search enumerates exponent vectors of the prime factorization; a test covers only a few n.", "anchors": ["sstmac/common/cartgrid.cc"]}
{"id": "C73", "title": "Automatic Cartesian allocation allocates the grid", "statement": "When Cartesian allocation picks its own grid for n nodes, it allocates n distinct nodes.", "quantifier": "for all n >= 1", "why_tests_cant": "unit tests run a handful of inputs; whether the allocated set has n members depends on every grid shape.", "anchors": ["sstmac/software/launch/cart_allocation.cc"]}
{"id": "C74", "title": "A window's cross-rank events arrive complete and in order", "statement": "The events that threads of one rank send to another rank during a window are, after buffering (with overflow into backup buffers) and decoding at the receiver, exactly the events sent, with their arrival time, link, sequence number and thread, in the order their space was reserved.", "quantifier": "every set of transferable events, every interleaving of the sending threads, every buffer capacity and backup size", "why_tests_cant": "unit tests run a handful of inputs; the outcome depends on the interleaving of threads and on cumulative sizes.", "anchors": ["sstmac/backends/common/parallel_runtime.cc: sendEvent, runSerialize, CommBuffer", "sstmac/backends/mpi/mpi_runtime.cc: sendRecvMessages", "sstmac/common/event_manager.cc: serializeSchedule", "sstmac/backends/native/clock_cycle_event_container.cc: receiveIncomingEvents"]}
{"id": "C75", "title": "Null pointers survive serialization", "statement": "A container of object pointers, some of them null, is read back with null exactly at the same positions.", "quantifier": "every container and every position of the null pointers", "why_tests_cant": "unit tests run a handful of inputs; uninitialised memory is often zero by luck in a test.", "anchors": ["sprockit/sprockit/serialize_serializable.h", "sprockit/sprockit/serialize_list.h", "sprockit/sprockit/serialize_vector.h"]}
{"id": "C76", "title": "A packet crossing ranks keeps its state", "statement": "A network packet sent to a switch simulated on another rank arrives there with the same state as if the switch were on the same rank.", "quantifier": "every packet", "why_tests_cant": "unit tests run a handful of inputs; serial and parallel runs differ only in timing, which a test would have to compare across configurations.", "anchors": ["sstmac/hardware/pisces/pisces.cc: serialize_order", "sstmac/hardware/pisces/pisces.h: PiscesPacket", "sstmac/hardware/common/packet.cc: serialize_order"]}
{"id": "C77", "title": "Mean time-quanta output is the weighted time", "statement": "With mean output selected, the value reported for an epoch is the sum over events of the event's value times its ticks within the epoch.", "quantifier": "every set of calendars, every epoch length", "why_tests_cant": "unit tests run a handful of inputs; short and long events take different branches.", "anchors": ["sstmac/common/stats/ftq.cc: FTQOutput::dump"]}
{"id": "C78", "title": "No rank leaves a barrier before every rank has entered it", "statement": "When a rank completes the Bruck barrier, every other rank of the communicator has already started it.", "quantifier": "for all numbers of ranks and all interleavings of message delivery", "why_tests_cant": "unit tests run a handful of inputs; needs every interleaving of an asynchronous protocol.", "anchors": ["sumi/allgather.h:135-150", "sumi/allgather.cc:104-165"]}
{"id": "C79", "title": "Ring allgather leaves every block at every rank", "statement": "After the ring allgather the result buffer of every rank holds the send block of rank r at block position r, for each r.", "quantifier": "for all numbers of ranks, block sizes, buffer contents and interleavings", "why_tests_cant": "unit tests run a handful of inputs; quantifies over rank counts and message orders.", "anchors": ["sumi/allgather.cc:208-260"]}
{"id": "C80", "title": "A blocked MPI_Probe is served by the next matching message", "statement": "A blocking probe returns once a matching message can be received, and the message it reports can then be received.", "quantifier": "every interleaving of probes, receives and arrivals of any size", "why_tests_cant": "interleavings of probes, receives and arrivals are unbounded", "anchors": ["sumi-mpi/mpi_queue/mpi_queue.cc: probe, notifyProbes", "sumi-mpi/mpi_protocol/eager1.cc: Eager1::incomingPayload", "sumi-mpi/mpi_protocol/eager0.cc: Eager0::incoming"]}
{"id": "C81", "title": "Cartesian communicators number processes the way MPI prescribes", "statement": "MPI_Cart_rank, MPI_Cart_coords and the ranks of a Cartesian communicator follow row-major order (last coordinate fastest), and MPI_Cart_rank reduces coordinates of periodic directions into range.", "quantifier": "every grid shape, every coordinate vector", "why_tests_cant": "tests on one-dimensional or square symmetric grids do not see the order", "anchors": ["sumi-mpi/mpi_comm/mpi_comm_cart.cc: set_coords, rank", "sumi-mpi/mpi_api_comm.cc: cartRank"]}
{"id": "C82", "title": "A group object lives as long as a communicator uses it", "statement": "After any history of MPI_Group_incl, MPI_Comm_create/dup/split, MPI_Cart_create, MPI_Group_free and MPI_Comm_free, every communicator that has not been freed has a group object that has not been deleted.", "quantifier": "every history of group and communicator calls", "why_tests_cant": "use after free depends on the order of frees and shows only as memory corruption", "anchors": ["sumi-mpi/mpi_comm/mpi_comm.cc: MpiComm::~MpiComm", "sumi-mpi/mpi_comm/mpi_comm_cart.cc: MpiCommCart", "sumi-mpi/mpi_api_group.cc: groupFree"]}
{"id": "C83", "title": "Group rank operations are consistent", "statement": "Rank lookup in a group is the inverse of indexing; translating ranks between groups denotes the same process or MPI_UNDEFINED; Group_incl selects the given ranks in order; range lists contain exactly start, start+stride, ... up to stop in order.", "quantifier": "every group, every rank list, every range triple", "why_tests_cant": "all groups and strides", "anchors": ["sumi-mpi/mpi_comm/mpi_group.cc", "sumi-mpi/mpi_api_group.cc: groupIncl, groupRangeIncl, groupTranslateRanks"]}
{"id": "C84", "title": "Failed ranks have no dense rank", "statement": "Asking for the dense rank of a failed rank is rejected, whatever the number of failures.", "quantifier": "every set of failed ranks", "why_tests_cant": "the linear and tree searches differ in this", "anchors": ["sumi/dense_rank_map.cc: linearFindRank, treeFindRank"]}
{"id": "C85", "title": "Size and extent of derived datatypes", "statement": "MPI_Type_size returns the number of bytes the type selects and MPI_Type_extent the distance from its first to its last byte, for every derived type.", "quantifier": "every nesting of contiguous, vector, hvector, indexed, hindexed and struct types", "why_tests_cant": "the space of nested type maps is unbounded", "anchors": ["sumi-mpi/mpi_types/mpi_type.cc: init_vector, init_indexed", "sumi-mpi/mpi_api_type.cc: typeSize, typeExtent"]}
{"id": "C86", "title": "Packing stays inside the packed buffer", "statement": "Packing count elements of a derived type writes only inside the count*size bytes allocated for it.", "quantifier": "every derived type and count", "why_tests_cant": "overruns show only for degenerate types", "anchors": ["sumi-mpi/mpi_types/mpi_type.cc: pack_action_vector, packSend", "sumi-mpi/mpi_protocol/mpi_protocol.cc: fillSendBuffer"]}
{"id": "C87", "title": "SMP communicators fit together", "statement": "When a communicator is split for shared memory, every rank's SMP communicator is exactly the communicator's ranks on its node in ascending order, ranks of a node agree on it, exactly the lowest rank of each node owns it, the owner communicator lists the owners and each owner knows its place, all ranks agree whether the nodes are evenly filled, and the set-up ends.", "quantifier": "every placement of ranks on nodes and every communicator", "why_tests_cant": "placements and communicators are unbounded", "anchors": ["sumi/communicator.cc: Communicator::createSmpCommunicator"]}
{"id": "C88", "title": "Predefined integer reductions", "statement": "Every predefined MPI reduction operator is available on the integer types and gives, for any contributions in any combination order, the result MPI defines (sums and products modulo the width).", "quantifier": "every width, every list of values, every reduction tree", "why_tests_cant": "values and reduction trees are unbounded", "anchors": ["sumi/comm_functions.h", "sumi-mpi/mpi_types/mpi_type.h: init_integer, init_ops, init_bitwise_ops"]}
{"id": "C89", "title": "The PISCES network delivers every packet", "statement": "Packets are neither lost nor copied; if packets fit the credits of a virtual channel and the router orders channels without cycles, the network comes to rest after finitely many steps, and then every injected packet has been delivered.", "quantifier": "every network of crossbars, buffers and interfaces, every routing that lowers a channel rank, every interleaving of packets and credits", "why_tests_cant": "deadlock freedom is a property of all interleavings and all networks", "anchors": ["sstmac/hardware/pisces/pisces_crossbar.cc: handlePayload, handleCredit", "sstmac/hardware/pisces/pisces_buffer.cc: handlePayload, handleCredit", "sstmac/hardware/pisces/pisces_sender.cc: send, sendCredit", "sstmac/hardware/pisces/pisces_nic.cc: inject, packetArrived"]}
{"id": "C90", "title": "Every message too big to be negligible goes through the network model", "statement": "A message longer than the negligible-size limit is sent through the congestion-modelled network; one within the limit is not.", "quantifier": "every message length and limit", "why_tests_cant": "64-bit lengths cannot be enumerated, and no test sends gigabytes", "anchors": ["sstmac/hardware/nic/nic.h: negligibleSize", "sstmac/hardware/nic/nic.cc: internodeSend", "sstmac/hardware/pisces/pisces_nic.cc: doSend"]}
{"id": "C91", "title": "Signals reach a waiting thread", "statement": "A pthread_cond_signal wakes one thread that waits on that condition variable, and has no effect when there is none.", "quantifier": "every interleaving of lock, unlock, wait and signal", "why_tests_cant": "depends on which threads wait on which condition at the time", "anchors": ["sstmac/libraries/pthread/sstmac_pthread.cc: SSTMAC_pthread_cond_signal, SSTMAC_pthread_cond_timedwait"]}
{"id": "C92", "title": "Cascade cables are consistent", "statement": "Every cable listed by connectedOutports of a cascade switch is listed at its other end with the ports exchanged, and no output port carries two cables.", "quantifier": "every accepted cascade shape and every switch", "why_tests_cant": "shapes unbounded; wrap-around arithmetic", "anchors": ["sstmac/hardware/topology/cascade.cc: connectedOutports, xygDirToGroup"]}
{"id": "C93", "title": "Cascade groups are joined directly", "statement": "When a group has more global ports than there are groups, any two groups of a cascade are joined by at least one cable.", "quantifier": "every accepted cascade shape with an even number of connections, every pair of groups", "why_tests_cant": "pairs and shapes unbounded", "anchors": ["sstmac/hardware/topology/cascade.cc: connectedOutports, xygDirToGroup"]}
{"id": "C94", "title": "Gather collects every block at the root", "statement": "In a gather, block r of the root's result buffer is rank r's contribution for every rank r; the call terminates under every interleaving without leftover messages, and nothing beyond the result or the workspace is written.", "quantifier": "every number of ranks >= 2, root, block size, contents and interleaving", "why_tests_cant": "Tests run a handful of rank counts with power-of-two sizes and root 0; the block layout of the partial trees at the end depends on the rank count and the root.", "anchors": ["sumi/gather.cc:51-212", "sumi/gather.h:55-110"]}
{"id": "C95", "title": "Scatter hands each rank its block", "statement": "In a scatter, the result buffer of rank p holds block p of the root's send buffer for every rank p, under every interleaving, with no leftover messages and nothing else written.", "quantifier": "every number of ranks >= 2, root, block size, contents and interleaving", "why_tests_cant": "The root's position in the binary tree decides which buffer is used; a test with root 0 and a power-of-two number of ranks passes while other roots lose their data.", "anchors": ["sumi/scatter.cc:51-224", "sumi/scatter.h:55-110"]}
{"id": "C96", "title": "Reduce leaves the reduction at the root", "statement": "When a reduce has completed at the root, every element of the root's result buffer is the reduction of all ranks' contributions, nothing past the buffer was written, and the collective always completes.", "quantifier": "every number of ranks >= 2, root, element count, contents, associative and commutative operation and interleaving", "why_tests_cant": "Whether rank 1 holds the second half depends on the folding of ranks onto a power of two; tests with power-of-two sizes, root 0 or a single element all pass.", "anchors": ["sumi/reduce.cc:63-310", "sumi/collective_actor.cc:900-927"]}
{"id": "C97", "title": "Scan gives every rank the reduction of all lower ranks", "statement": "After a scan (inclusive prefix reduction) of nelems elements over n ranks with an associative and commutative operation, the result buffer of rank r holds in each element the reduction of the contributions of ranks 0 to r and is unchanged behind the last element; the collective always comes to an end and leaves no message behind.", "quantifier": "for every number of ranks, number of elements, operation, contents of buffers and every order of message deliveries", "why_tests_cant": "Tests run a few sizes under one schedule of events; the copies that the algorithm needs between rounds depend on the order in which the actor sets up its buffers and its actions.", "anchors": ["sumi/scan.cc:58-152", "sumi/collective_actor.h:365-369", "sumi/collective_actor.h:380-395", "sumi/collective_actor.cc:603-609"]}
{"id": "C98", "title": "Allgatherv gives every rank every block", "statement": "After an allgatherv in which rank j contributes counts[j] elements, the result buffer of every rank holds the contributions of all ranks one after the other in the order of the ranks, nothing behind them is changed, both ends of every message agree on its length, and the collective always comes to an end; with separate buffers or in place.", "quantifier": "for every number of ranks, all block sizes (zero included), all contents and every order of message deliveries", "why_tests_cant": "Block sizes, rank counts that are not powers of two and message orders multiply to far more cases than tests can run; offsets of later rounds depend on the sizes of all earlier blocks.", "anchors": ["sumi/allgatherv.cc:61-220", "sumi/allgatherv.h:60-92"]}
{"id": "C99", "title": "A SNAPPR output port keeps packets and respects credits", "statement": "For both arbitrators (first in first out, weighted round robin): no internal check of the port fails, every packet handed to the port is either sent once or still held, the queue length the port reports is the number of packets held, and with flow control the bytes sent on a virtual lane never exceed the initial credits plus those returned for it.", "quantifier": "for every number of lanes, all packet sizes and credits, both arbitrators, every order of arrivals, credit returns and arbitrations, every way to break ties", "why_tests_cant": "Whether a packet is lost or credits are overdrawn depends on the interleaving of arrivals, credits and arbitration events; tests run a handful of interleavings and look at delivered messages only.", "anchors": ["sstmac/hardware/snappr/snappr_outport.cc:60-349", "sstmac/hardware/snappr/snappr_outport.cc:351-480", "sstmac/hardware/snappr/snappr_outport.cc:482-972", "sstmac/hardware/snappr/snappr_outport.h:66-180"]}
{"id": "C100", "title": "A SNAPPR output port is never left idle with a sendable packet", "statement": "If no arbitration is scheduled at a port, then on every lane the oldest packet waiting exceeds the credits of the lane; a scheduled arbitration is at the end of the current transmission. So a port with enough credits sends every packet.", "quantifier": "for every number of lanes, all packet sizes and credits, both arbitrators, every order of arrivals, credit returns and arbitrations", "why_tests_cant": "A missed wake-up needs a particular interleaving of a credit and an arbitration at one time stamp; tests that finish show only that it did not occur in them.", "anchors": ["sstmac/hardware/snappr/snappr_outport.cc:60-349"]}
{"id": "C101", "title": "SNAPPR ports keep the order of a lane", "statement": "Packets of one virtual lane leave an output port in the order in which they were handed to it.", "quantifier": "for every number of lanes, all packet sizes and credits, both arbitrators, every order of arrivals, credit returns and arbitrations", "why_tests_cant": "Overtaking needs a packet that does not fit the credits followed by one that does; sizes and credit states of that kind are rare in tests.", "anchors": ["sstmac/hardware/snappr/snappr_outport.cc:372-450", "sstmac/hardware/snappr/snappr_outport.cc:482-972"]}
{"id": "C102", "title": "SNAPPR port statistics split the time", "statement": "Transmissions of a port do not overlap; xmit_active, xmit_idle, xmit_stall and the flit overheads add up to the end of the last transmission, and xmit_stall is the time in which packets wait at a port that is not transmitting.", "quantifier": "for every sequence of arrivals, credit returns and arbitrations with any times", "why_tests_cant": "Tests print the statistics of single runs without a second account to compare them with.", "anchors": ["sstmac/hardware/snappr/snappr_outport.cc:130-300"]}
{"id": "C103", "title": "Priorities and bandwidth caps of the weighted round-robin arbitrator", "statement": "A packet is sent from a lane although a lane of higher priority could send only if that lane is capped and its last packet was sent less than its transmission time at the capped bandwidth ago. A capped lane never exceeds its bandwidth: when it sends a packet, everything it sent before has had its time at the capped bandwidth.", "quantifier": "for every configuration of lanes (types, delays, priorities, credits), every sequence of insertions, credits and pops in the order of time, every way to break ties", "why_tests_cant": "Which lane comes next depends on the history of all lanes; tests look at total run times.", "anchors": ["sstmac/hardware/snappr/snappr_outport.cc:529-552", "sstmac/hardware/snappr/snappr_outport.cc:697-904"]}
{"id": "C104", "title": "A lane with a minimum bandwidth is served after its deadline", "statement": "Once the oldest packet of a lane with a minimum bandwidth has had credits for its transmission time at that bandwidth, every other lane of the same priority sends at most one more packet before it.", "quantifier": "for every configuration of lanes, every sequence of insertions, credits and pops in the order of time, every way to break ties", "why_tests_cant": "Starvation is the absence of an event in unbounded runs; it needs lanes that keep running out of credits.", "anchors": ["sstmac/hardware/snappr/snappr_outport.cc:697-967"]}
{"id": "C105", "title": "The SNAPPR NIC injects every message exactly once, in order and within its buffer", "statement": "With the default injection queue each message given to the NIC leaves as its pieces of at most the MTU (at least one, the last one marked), none missing, doubled or out of order, messages in the order they were given; the buffer never goes below zero and is the initial size plus credits minus injected bytes; every call returns; the NIC rests only if all is injected or the next piece does not fit, so with all credits back and a buffer of at least one MTU everything has been injected.", "quantifier": "for all MTUs, buffer sizes, message lengths, and interleavings of sends and credits", "why_tests_cant": "interleavings of sends and credits with partial injections are unbounded", "anchors": ["sstmac/hardware/snappr/snappr_nic.cc:217-265", "sstmac/hardware/snappr/snappr_nic.cc:342-399", "sstmac/hardware/snappr/snappr_nic.cc:411-445"]}
{"id": "C106", "title": "Round-robin injection at the SNAPPR NIC is fair and loses nothing", "statement": "With the injection queue round_robin each message is injected exactly once and in order as with fifo, and between two packets of a message each other message that was unfinished at the first one injects exactly one packet and no others do.", "quantifier": "for all numbers of queued messages, lengths and interleavings of sends and credits", "why_tests_cant": "needs more messages queued than any test uses, and fairness is about all interleavings", "anchors": ["sstmac/hardware/snappr/snappr_nic.cc:493-540", "sstmac/hardware/snappr/snappr_nic.cc:217-255"]}
{"id": "C107", "title": "Packets leave the SNAPPR NIC on the lane of their quality of service", "statement": "Every packet is put on a lane that exists: the lane of its quality of service, where rdma_get_qos replaces that of get requests, or with scatter_qos the lanes in turn.", "quantifier": "for all settings, messages and interleavings", "why_tests_cant": "depends on the combination of settings and message attributes", "anchors": ["sstmac/hardware/snappr/snappr_nic.cc:371-399"]}
{"id": "C108", "title": "Point-to-point messages deliver the data of the send", "statement": "In every run in which the program leaves the buffers of pending operations alone and messages fit the receives they are matched with, each completed MPI receive leaves in its buffer the bytes (packed by the send's type, unpacked by the receive's type) that were in the send buffer when the send was called, and the other bytes of the buffer unchanged; buffers without a pending receive hold only what the program wrote and what earlier receives delivered.", "quantifier": "all configurations of the protocol limits, all programs of sends, receives and writes, all types without empty blocks, all protocols (Eager0, Eager1, rendezvous with both acknowledgements) and paths (same rank, same node, network), all orders in which messages move and are matched", "why_tests_cant": "the delivered bytes depend on the protocol, the path, the order of arrival and matching, and on which temporary holds the data; a test fixes all of these", "anchors": ["sumi-mpi/mpi_protocol/eager0.cc:64-121", "sumi-mpi/mpi_protocol/eager1.cc:64-150", "sumi-mpi/mpi_protocol/rendezvous_rdma.cc:96-266", "sumi-mpi/mpi_queue/mpi_queue.cc:165-260", "sstmac/hardware/network/network_message.cc:57-180", "sstmac/hardware/nic/nic.cc:183-288"]}
{"id": "C109", "title": "Matched sends and receives complete exactly once", "statement": "In every run that obeys the rules, a send or receive completes at most once, a message is matched at most once, only called sends and matched receives complete, eager sends are complete when the call returns, the messages on their way come to rest after a bounded number of steps, and then every matched send and receive is complete.", "quantifier": "all runs of the point-to-point model and all continuations by moves of messages", "why_tests_cant": "completion is spread over acknowledgements in different protocols and orders; tests see one order", "anchors": ["sumi-mpi/mpi_protocol/eager0.cc:64-121", "sumi-mpi/mpi_protocol/eager1.cc:64-150", "sumi-mpi/mpi_protocol/rendezvous_rdma.cc:96-266", "sumi/sim_transport.cc:412-479", "sstmac/hardware/nic/nic.cc:183-288"]}
{"id": "C110", "title": "Point-to-point messages use memory safely", "statement": "In a run that obeys the rules no step of a message, match or send deletes a block twice, reads or writes deleted memory or a null pointer, or goes beyond the end of a block the library allocated.", "quantifier": "all runs of the point-to-point model and all next steps", "why_tests_cant": "ownership of temporaries passes between messages and requests in ways that depend on protocol, path and order", "anchors": ["sstmac/hardware/network/network_message.cc:57-180", "sumi-mpi/mpi_protocol/eager0.cc:64-121", "sumi-mpi/mpi_protocol/eager1.cc:64-150", "sumi-mpi/mpi_protocol/rendezvous_rdma.cc:96-266", "sumi-mpi/mpi_queue/mpi_queue_recv_request.cc:57-117"]}
{"id": "C111", "title": "Messages longer than the receive are rejected", "statement": "A message matched with a receive is rejected if and only if it has more bytes than the receive buffer.", "quantifier": "all runs and all pairs of an unmatched message and a posted receive", "why_tests_cant": "whether the check sees the length of the data depends on the protocol chosen by the configured limits", "anchors": ["sumi-mpi/mpi_queue/mpi_queue_recv_request.cc:57-117", "sumi-mpi/mpi_protocol/rendezvous_rdma.cc:96-266", "sumi/message.h:276-278"]}
{"id": "C112", "title": "Memory of finished messages is released", "statement": "When no message is left and no receive is waiting, every temporary buffer that the point-to-point protocols allocated has been deleted.", "quantifier": "all runs of the point-to-point model", "why_tests_cant": "tests compare results, not what is still allocated after all protocols, paths and orders", "anchors": ["sumi-mpi/mpi_protocol/eager0.cc:64-121", "sumi-mpi/mpi_protocol/mpi_protocol.h:228-229", "sumi-mpi/mpi_protocol/rendezvous_rdma.cc:96-266", "sstmac/hardware/network/network_message.cc:57-180"]}
{"id": "C113", "title": "Dragonfly+ cables, coordinates and nodes fit together", "statement": "On a dragonfly+ switch ids and (row, position, group) coordinates are inverse to each other; every cable has its opposite with the same two ports, no port carries two cables, every node is attached to exactly one port of exactly one leaf switch, that port carries no cable, upper switches carry no nodes, and no port number reaches maxNumPorts.", "quantifier": "All group sizes, group counts and concentrations; cables: all-to-all wirings the constructor accepts and all circulant wirings.", "why_tests_cant": "Tests build a few machines; a wrong input port would only show as lost or misrouted packets on particular shapes.", "anchors": ["sstmac/hardware/topology/dragonfly_plus.cc:108-137", "sstmac/hardware/topology/dragonfly_plus.cc:174-226", "sstmac/hardware/topology/dragonfly_plus.h:136-174"]}
{"id": "C114", "title": "Dragonfly+ minimal routing delivers by a shortest path without deadlock", "statement": "Whatever the rotation counters hold and with static routing too, a packet injected at any leaf switch is ejected at the port of its destination node after the smallest number of cables any path has, at most three, always on virtual channel 0, and no circle of packets waiting for each other can form.", "quantifier": "All wirings the router constructor accepts on every switch with all h links present (all-to-all wirings are such), all sources, destinations and counter values.", "why_tests_cant": "There are many counter values per switch and deadlock needs a particular combination of packets.", "anchors": ["sstmac/hardware/router/dragonfly_plus_routing.cc:71-161"]}
{"id": "C115", "title": "Dragonfly+ adaptive routing delivers with at most one detour and without deadlock", "statement": "Whatever the queue lengths, random numbers and rotation counters are, a packet under the PAR router reaches its node over at most four cables using two virtual channels; it either takes a shortest path or visits exactly one further group that is neither the source's nor the destination's; no circle of packets waiting for each other can form.", "quantifier": "All wirings as in C114, all sources, destinations, decisions and counter values.", "why_tests_cant": "The decisions depend on load and on random draws that tests cannot enumerate.", "anchors": ["sstmac/hardware/router/dragonfly_plus_routing.cc:195-288"]}
{"id": "C116", "title": "Dragonfly+ reported hop count is the real one", "statement": "The distance the topology reports between two switches or nodes is the smallest number of cables between them.", "quantifier": "All all-to-all dragonfly+ machines and pairs of switches.", "why_tests_cant": "Tests compare a few pairs; the value is used silently in statistics and in delay models.", "anchors": ["sstmac/hardware/topology/dragonfly_plus.cc:139-153", "sstmac/hardware/topology/dragonfly_plus.h:180-184"]}
{"id": "C117", "title": "A thread does not sleep while what it waits for is there", "statement": "In every history of a node's threads in which no thread is joined twice and a running thread posts an item only when no thread waits for that queue or for any queue: a thread sleeping in MultiProgressQueue::find or find_any sleeps only when every item ever put into the queue(s) it waits for has been handed out; an item that arrives from the simulator while threads wait is handed at once to one of them, preferring those that wait for this queue; a sleeping thread whose timer or timeout runs, that is to be started, or whose joined thread has ended always has the event that wakes it. Histories of a process with one thread always meet the conditions. Without the condition on posts it is false: two posts wake the same waiter twice, the other sleeps beside an item and a computing thread continues early.", "quantifier": "all histories of arrivals, events in any order, polls, posts, computations, starts, joins and ends, any number of threads and queues", "why_tests_cant": "needs every interleaving of wake-ups and arrivals", "anchors": ["sstmac/software/process/progress_queue.h:197-260", "sstmac/software/process/progress_queue.cc:51-75", "sstmac/software/process/operating_system.cc:410-544", "sumi/sim_transport.cc:415-425"]}
{"id": "C118", "title": "Completion queues hand out each item once and in order", "statement": "In good histories (C117) the items returned from a queue are exactly the first of the items put into it, in order; a find with an item available returns the oldest one at once; a find returns nothing only if it was told not to block and all items have been handed out, or when its own timeout has passed, and a blocking find without timeout never does. With two posts by a running thread while two threads wait a blocking find without timeout returns nothing.", "quantifier": "all good histories; refutation by a history of fifteen steps", "why_tests_cant": "needs every interleaving", "anchors": ["sstmac/software/process/progress_queue.h:197-260", "sumi/sim_transport.cc:415-425"]}
{"id": "C119", "title": "Threads continue only for the reason they stopped", "statement": "In good histories (C117) a thread continues from a computation or sleep only by its own timer, from a join only after that thread has ended (which is then deleted), from a find only by an item or its own timeout; at most one thread is active; and if no timeouts are used no thread that is not paused is switched to, none is deleted before its end, none is used after it was deleted. With a timeout a thread can end and be joined before the timeout event is executed, which then reads the deleted thread.", "quantifier": "all good histories", "why_tests_cant": "needs every interleaving of events", "anchors": ["sstmac/software/process/operating_system.cc:301-340", "sstmac/software/process/operating_system.cc:410-579", "sstmac/software/process/unblock_event.cc:57-80"]}
{"id": "C120", "title": "Broadcast carries the root's elements into every rank's elements", "statement": "Whatever layout each rank's datatype has, as long as all ranks name the same number of bytes, MPI_Bcast leaves in rank p's elements, in order, the bytes of the root's elements, changes nothing else of p's memory and nothing of the root's.", "quantifier": "all ranks, roots, addresses, contents, engine interleavings; types that pack correctly, possibly different per rank", "why_tests_cant": "The result depends on the pair of layouts, the address and the order of the asynchronous rounds; tests use one type and one schedule.", "anchors": ["sumi-mpi/mpi_api_collectives.cc:86-185", "sumi-mpi/mpi_api_collectives.cc:543-584", "sumi/bcast.cc:52-126", "sumi/sim_transport.cc:713-723"]}
{"id": "C121", "title": "Gather, scatter, allgather and alltoall move user elements, in place too", "statement": "For a call with matching byte counts, block j of the receive elements ends up as what rank j put in (allgather, gather at the root), as block p of rank j's send elements (alltoall) or, for scatter, rank p's elements are block p of the root's; MPI_IN_PLACE stands for the rank's own data in the receive buffer; nothing else of any memory changes.", "quantifier": "all ranks, roots, addresses, contents, block sizes, element layouts, engine interleavings, MPI_IN_PLACE at any rank", "why_tests_cant": "Wrong bytes appear only for some layouts, ranks or in-place calls, and the engine's rounds run in any order.", "anchors": ["sumi-mpi/mpi_api_collectives.cc:86-185", "sumi-mpi/mpi_api_collectives.cc:240-354", "sumi-mpi/mpi_api_collectives.cc:636-674", "sumi-mpi/mpi_api_collectives.cc:1034-1062", "sumi/alltoall.cc:65-87"]}
{"id": "C122", "title": "Allgatherv puts every rank's elements at that rank's displacement", "statement": "After MPI_Allgatherv, block j of the receive buffer, which starts at displs[j] and has recvcounts[j] elements, holds what rank j put in (its send elements or, in place, its own block), and nothing outside the blocks changed.", "quantifier": "all ranks, counts (zero included), contents, displacements, types, MPI_IN_PLACE at any rank, engine interleavings", "why_tests_cant": "Needs particular counts, displacements or pairs of types; tests use packed blocks of one type.", "anchors": ["sumi-mpi/mpi_api_vcollectives.cc:66-111", "sumi-mpi/mpi_request.cc:66-92", "sumi/allgatherv.cc:61-220", "sumi/sim_transport.cc:887-899"]}
{"id": "C123", "title": "Alltoallv sends every pair of ranks its counts, once, and always ends", "statement": "Under MPI_Alltoallv every rank sends every rank exactly one message with sendcounts[q] elements, whatever is sent eagerly, the call ends at every rank after finitely many steps, and afterwards block j of the receive buffer holds the elements rank j had for this rank.", "quantifier": "all ranks, counts, displacements, contents, any mix of eager and rendezvous messages, all interleavings", "why_tests_cant": "Deadlock and lost messages depend on the interleaving of chained sends and receives; data errors on counts and displacements.", "anchors": ["sumi/alltoallv.cc:65-142", "sumi-mpi/mpi_api_vcollectives.cc:161-205", "sumi/sim_transport.cc:821-831"]}
{"id": "C124", "title": "SMP allgather gives the result of the plain allgather", "statement": "With smp_optimize, an allgather on a communicator that has SMP sub-communicators ends, and every rank then holds rank j's contribution in block j and nothing behind the last block is written, wherever the ranks of the communicator are placed.", "quantifier": "every communicator, placement, block size, contents and interleaving of the ranks", "why_tests_cant": "placements and interleavings cannot be enumerated; the usual test placement hides the block order", "anchors": ["sumi/sim_transport.cc: CollectiveEngine::allgather:833-885", "sumi/sim_transport.cc: CollectiveEngine::startCollective:946-980", "sumi/communicator.cc: Communicator::createSmpCommunicator:59-136"]}
{"id": "C125", "title": "SMP alltoall gives the result of the plain alltoall", "statement": "With smp_optimize, an alltoall on a communicator that has SMP sub-communicators leaves in block j of rank r what rank j had in block r, and writes only into buffers that are large enough.", "quantifier": "every communicator, placement, block size, contents and interleaving", "why_tests_cant": "the result depends on the placement of all ranks and the contents of all buffers", "anchors": ["sumi/sim_transport.cc: CollectiveEngine::alltoall:776-819"]}
{"id": "C126", "title": "SMP allreduce gives the result of the plain allreduce", "statement": "With smp_optimize, an allreduce on a communicator that has SMP sub-communicators leaves the reduction of all contributions at every rank.", "quantifier": "every communicator, placement, count, contents and interleaving", "why_tests_cant": "the call reports completion like a working one", "anchors": ["sumi/sim_transport.cc: CollectiveEngine::allreduce:631-672"]}
{"id": "C127", "title": "Messages that arrive before their process are not lost", "statement": "A message that arrives on a node before the SUMI server of the node or the target process exists is kept, and is given to the target process exactly once: to the callback that this process installed for the message's completion queue. When the process runs, has the callback and the delayed deliveries were executed, no message for it is kept any more. A node that is used properly never fails", "quantifier": "all interleavings of arrivals, delayed deliveries, process starts and ends and queue operations of any number of applications and ranks on a node", "why_tests_cant": "which message comes before which process depends on the start-up order of a whole machine", "anchors": ["sstmac/software/process/operating_system.cc:581-607", "sstmac/software/process/operating_system.cc:786-821", "sumi/sim_transport.cc:119-197", "sumi/sim_transport.cc:507-532"]}
{"id": "C128", "title": "Messages for one queue are delivered in the order of arrival on the node", "statement": "Messages for the same completion queue of the same process are given to it in the order in which they arrived on the node", "quantifier": "all interleavings of arrivals, delayed deliveries, process starts and ends", "why_tests_cant": "an overtaking needs an arrival at the very time at which the first process of the node starts", "anchors": ["sstmac/software/process/operating_system.cc:596-606", "sstmac/software/process/operating_system.cc:786-821", "sumi/sim_transport.cc:144-153"]}
{"id": "C129", "title": "Completion queues of a process are set up safely", "statement": "Messages that arrive before their completion queue is set up are handed to it when it is; a queue that was given back receives nothing any more; queue numbers in use are different", "quantifier": "all sequences of queue operations and arrivals", "why_tests_cant": "the ranks have to be out of step exactly between two calls of one rank", "anchors": ["sumi/sim_transport.cc:295-307", "sumi/sim_transport.cc:507-532", "sumi/sim_transport.h:241-265"]}
{"id": "C130", "title": "A node is clean after its processes ended", "statement": "When the last process of a node ended, the SUMI server of the node is removed and the operating system can be deleted", "quantifier": "all interleavings of arrivals, process starts and ends", "why_tests_cant": "a late message is needed", "anchors": ["sumi/sim_transport.cc:156-165", "sumi/sim_transport.cc:333-337", "sstmac/software/process/operating_system.cc:238-252"]}
{"id": "C131", "title": "SMP neighbours are the ranks on the node", "statement": "The ranks that the SMP optimisation takes for neighbours are exactly the ranks of the application that run on this node", "quantifier": "all interleavings of arrivals, process starts and ends", "why_tests_cant": "it depends on which messages came before the list is read", "anchors": ["sumi/sim_transport.cc:188-194", "sumi/sim_transport.cc:309-325"]}
{"id": "C132", "title": "Requests reach the library of their name once", "statement": "A request for a library of the operating system is given exactly once to a library registered under that name or is kept until one is registered; a library that exists is found under its name", "quantifier": "all sequences of libraries made and destroyed, requests and delayed calls", "why_tests_cant": "the lifetimes of libraries have to overlap in a special way", "anchors": ["sstmac/software/process/operating_system.cc:581-624", "sstmac/software/process/operating_system.cc:786-821", "sstmac/software/libraries/library.cc:52-64"]}
{"id": "C133", "title": "SCULPIN ports send every packet once, by priority and in order", "statement": "An output port of a SCULPIN switch sends every packet that comes to it exactly once. Packets of one priority leave in the order in which they came, also when they come at the same time. A packet is not overtaken by one of lower priority while it waits. A pull event never finds the queue empty (the abort is unreachable), and what waits is sent without further events.", "quantifier": "all byte delays, all sequences of arrivals and pull events in the order of their times, all orders at equal times", "why_tests_cant": "The order depends on races between arrivals and pulls at equal times and on the reset of the sequence number.", "anchors": ["sstmac/hardware/sculpin/sculpin_switch.cc:189-291", "sstmac/hardware/sculpin/sculpin_switch.h:122-146"]}
{"id": "C134", "title": "A SCULPIN link carries one packet at a time and is never idle while one waits", "statement": "With congestion, each packet on a link starts exactly at the later of its own arrival at the port and the end of the packet before it; no two packets are on the link at the same time.", "quantifier": "all byte delays, packet sizes and arrivals", "why_tests_cant": "The times come from next_free and from pull events scheduled by other packets.", "anchors": ["sstmac/hardware/sculpin/sculpin_switch.cc:189-291"]}
{"id": "C135", "title": "SCULPIN packets keep causality and order along a path", "statement": "Along any sequence of switches the end of a packet never leaves a switch before it has come, whatever the bandwidths of the links. Two packets of one priority on the same path that do not overlap at its start keep their order and do not overlap at its end.", "quantifier": "all paths, all bandwidths and latencies of the links, all other traffic at every port", "why_tests_cant": "Fast links behind slow ones need the delayed try of handlePayload; cross traffic differs at every switch.", "anchors": ["sstmac/hardware/sculpin/sculpin_switch.cc:189-332"]}
{"id": "C136", "title": "The SCULPIN NIC cuts, injects and hands up messages in order", "statement": "A message is cut into packets of the packet size and a rest, together as many bytes as the message. They are injected back to back as soon as the NIC is free, the acknowledgement comes when the last one has left. A packet is handed up after its last byte has come, ejections do not overlap, and packets of a message on one path are handed up in the order of the message.", "quantifier": "all message sizes, packet sizes, bandwidths and traffic", "why_tests_cant": "The size of a message is cut to 32 bits, which only huge messages show.", "anchors": ["sstmac/hardware/sculpin/sculpin_nic.cc:128-206"]}
{"id": "C137", "title": "Simulated threads have stacks of their own", "statement": "Stacks in use share no byte and each is in use once; each is aligned on the stack size and lies completely in memory that was mapped and is not protected. From any address on its stack a thread finds the data of its own stack. With protect_stacks the region below each stack is protected. Starting a thread always yields a stack.", "quantifier": "all stack sizes, chunk sizes, sequences of thread starts and ends, all addresses mmap may return", "why_tests_cant": "Overlap or misalignment shows only for some addresses returned by mmap and some interleavings of starts and ends.", "anchors": ["sstmac/software/threading/stack_alloc.cc:61-130", "sstmac/software/threading/stack_alloc_chunk.cc:61-108", "sstmac/software/process/thread_info.cc:110-123", "sstmac/software/process/global.h:123-130"]}
{"id": "C138", "title": "Global variables have separate, aligned places in the order of declaration", "statement": "No two global variables share a byte of the segment, whatever libraries are loaded and processes are started in between. Initialisation functions are called in the order in which the variables were declared. Variables are aligned for their type.", "quantifier": "all sequences of declarations, library loads and unloads, process starts and ends", "why_tests_cant": "Overlap depends on sizes and on the order of static constructors over all libraries.", "anchors": ["sstmac/software/process/global.cc:82-164", "sstmac/software/process/global.h:58-112"]}
{"id": "C139", "title": "Every simulated process has its own global variables", "statement": "Each process sees of each global variable the declared value until it writes it itself, as if it ran alone; writes of one process are seen by no other; no access leaves the memory of the segment or of the initial values; variables can be declared while no process runs.", "quantifier": "all sequences of declarations, starts with and without globals_size, writes, ends of processes and threads", "why_tests_cant": "Whether memory is overrun depends on the history of library loads and on parameters of other applications.", "anchors": ["sstmac/software/process/global.cc:96-201", "sstmac/software/process/app.cc:126-143", "sstmac/software/process/thread_info.cc:110-176", "sstmac/software/process/thread.cc:307-317"]}
{"id": "C140", "title": "LogP injection serialises the messages of a node", "statement": "With the LogP network the messages of a node longer than negligible_size are injected one after the other: each starts when it is sent or when an earlier one has been injected, takes the injection latency and its length times the byte delay, and is acknowledged then; shorter messages take no injection time.", "quantifier": "all configurations and all sequences of messages from all nodes", "why_tests_cant": "The times depend on every message that the node sent before; message sizes of 2 GB and more are not run in tests.", "anchors": ["sstmac/hardware/logp/logp_nic.cc:95-115", "sstmac/hardware/nic/nic.cc:312-347", "sstmac/hardware/nic/nic.h:209-211"]}
{"id": "C141", "title": "LogP delivers each message once and receptions do not overlap", "statement": "Every message is delivered exactly once, not before the time it takes through the network (hops times hop latency, length times byte delay, link latency), and messages are received at a node one after the other, each for its length times the byte delay of the NIC, without idle time in between while messages wait.", "quantifier": "all configurations and all sequences of messages from all nodes to one node", "why_tests_cant": "Contention at the receiver depends on the times of all senders.", "anchors": ["sstmac/hardware/logp/logp_nic.cc:73-93", "sstmac/hardware/logp/logp_switch.cc:122-155", "sstmac/common/timestamp.h:303-313"]}
{"id": "C142", "title": "LogP keeps the order of messages between two nodes", "statement": "Messages from one node to another are delivered in the order in which they were sent.", "quantifier": "all configurations and all sequences of messages from all nodes to one node", "why_tests_cant": "Overtaking depends on sizes, bandwidths and the other traffic.", "anchors": ["sstmac/hardware/logp/logp_nic.cc:73-115", "sstmac/hardware/logp/logp_switch.cc:122-155"]}
{"id": "C143", "title": "LogP memory serves accesses one after the other", "statement": "Accesses of LogP memory do not overlap: each starts when it is asked for or when an earlier one has ended, takes the latency and its size times the sum of request delay and byte delay, and its callback is executed then.", "quantifier": "all sequences of accesses with any times, sizes and delays", "why_tests_cant": "The time of an access depends on all earlier ones.", "anchors": ["sstmac/hardware/logp/logp_memory_model.cc:73-97"]}
{"id": "C144", "title": "A computation takes at least its instructions and its memory accesses", "statement": "The simulated time of a computation with memory is at least the time of its instructions and at least the time of its memory accesses, and on idle memory not more than the sum.", "quantifier": "all processor and memory parameters and all amounts of work", "why_tests_cant": "Rounding to ticks matters only for some combinations of bandwidth, size and instruction count.", "anchors": ["sstmac/hardware/processor/instruction_processor.cc:88-115", "sstmac/hardware/logp/logp_memory_model.cc:88-97"]}
{"id": "C145", "title": "PISCES memory completes every access once and keeps its channels", "statement": "The callback of every access is executed exactly once, after packets that add up to its size; every channel is given back; accesses that wait are started when a channel is free; the number of events is bounded.", "quantifier": "all numbers of channels, packet sizes, sequences of accesses, also from callbacks, and orders of events", "why_tests_cant": "Which access waits depends on the interleaving of all accesses of a node.", "anchors": ["sstmac/hardware/pisces/pisces_memory_model.cc:97-216", "sstmac/hardware/pisces/pisces_memory_model.h:101-129"]}
{"id": "C146", "title": "SNAPPR memory completes every flow once", "statement": "The callback of every flow is executed exactly once, after packets of at most flow_mtu that add up to its size, not before all its requests could be made with the request delay and its last packet was transferred; the memory never stops with a flow unfinished; the number of events is exact.", "quantifier": "all numbers of channels, packet sizes, byte delays, sequences of flows and NIC requests, orders of events at equal times", "why_tests_cant": "Flows interleave with each other and with the NIC.", "anchors": ["sstmac/hardware/snappr/snappr_mem.cc:79-145"]}
{"id": "C147", "title": "Channels of SNAPPR memory serve requests one after the other in turn", "statement": "The requests on a channel do not overlap, each starts when it is issued or when an earlier one on the channel has ended, request i uses channel i modulo the number of channels, and each NIC request is answered exactly once, when its head is there.", "quantifier": "all numbers of channels, packet sizes, byte delays, sequences of flows and NIC requests, orders of events at equal times", "why_tests_cant": "The load of a channel depends on all flows.", "anchors": ["sstmac/hardware/snappr/snappr_mem.cc:132-145"]}
{"id": "C148", "title": "Persistent requests can be started again and again", "statement": "MPI_Send_init and MPI_Recv_init make an inactive request. Every MPI_Start hands exactly one transfer with the arguments of the init call to the network; MPI_Wait or MPI_Waitany returns once that transfer is over, reports its message and leaves the request inactive and usable. Waiting for or testing an inactive request returns at once with an empty status and it is never chosen by MPI_Waitany over an active one.", "quantifier": "all sequences of isend, irecv, init, start, wait, waitany, test, free, send, recv and sendrecv calls of a rank, all numbers of restarts, all orders in which transfers finish", "why_tests_cant": "the number and order of restarts, of interleaved requests and of finished transfers is unbounded", "anchors": ["sumi-mpi/mpi_api_send_recv.cc:139-267", "sumi-mpi/mpi_api_wait.cc:81-230", "sumi-mpi/mpi_request.h:146-261"]}
{"id": "C149", "title": "Communication with MPI_PROC_NULL does nothing and is over at once", "statement": "Whatever is called, nothing is sent to or awaited from MPI_PROC_NULL; such a call, or the wait for it, returns at once; a receive reports the null process, and MPI_STATUS_IGNORE may be passed.", "quantifier": "all call sequences before, all kinds of point-to-point calls", "why_tests_cant": "any earlier history of calls and messages is possible", "anchors": ["sumi-mpi/mpi_api_send_recv.cc:65-137", "sumi-mpi/mpi_api_send_recv.cc:171-193", "sumi-mpi/mpi_api_send_recv.cc:269-426"]}
{"id": "C150", "title": "A polling loop sees its message", "statement": "A loop of MPI_Test or MPI_Iprobe calls ends after a bounded number of calls once its message arrives, whatever else arrives and whatever the program computes in between, and never before the message arrives.", "quantifier": "all arrival schedules, all delays, all computation times between calls", "why_tests_cant": "arrival times and the number of polls are unbounded, and a loop that does not end shows in no test", "anchors": ["sumi-mpi/mpi_api_test.cc:54-79", "sumi-mpi/mpi_api_probe.cc:79-101", "sumi-mpi/mpi_queue/mpi_queue.cc:499-507"]}
{"id": "C151", "title": "All ranks of a parallel run have the same parameters", "statement": "SimParameters::parallelBuildParams gives every rank the same value for every key of every namespace: rank 0 reads the file with all its includes and variables, prints the result with reproduceParams, and the other ranks read the text with parseStream. The serializer of SST::Params sends parameters the same way.", "quantifier": "for every input file, every set of included files, every rank, every namespace and key", "why_tests_cant": "a test compares a few input files; the claim is about every key and value a file can contain, including ones that look like comments, braces or variable settings when they start a line", "anchors": ["sprockit/sprockit/sim_parameters.cc:408-419", "sprockit/sprockit/sim_parameters.cc:763-848", "sprockit/sprockit/sim_parameters.h:657-670"]}
{"id": "C152", "title": "A parameter file means what its lines say", "statement": "Reading a file gives the table of values obtained by going through the lines once: a block opens a namespace, a dotted key names one, an assignment replaces the earlier value of the same key in the same namespace and changes no other key, unset removes one, $x stands for the variable of the innermost enclosing namespace that has it, an included file is read in the namespace of the include line. A dotted key and nested blocks are the same. The last assignment to a key counts.", "quantifier": "for every file, every set of included files, every nesting and order of lines", "why_tests_cant": "the number of nestings, orders and repetitions is unbounded", "anchors": ["sprockit/sprockit/sim_parameters.cc:664-733", "sprockit/sprockit/sim_parameters.cc:803-873", "sprockit/sprockit/sim_parameters.cc:952-1014"]}
{"id": "C153", "title": "The command line overrides the file", "statement": "After the parameters of the command line are merged into those of the file (combineInto), every key has the value of the command line if it has one there, and the value of the file otherwise; merging without override keeps the values that are there and adds only what is missing.", "quantifier": "for every file and every set of parameters of the command line, every namespace and key", "why_tests_cant": "all overlaps of two nested sets of keys cannot be tried", "anchors": ["sprockit/sprockit/sim_parameters.cc:1046-1066", "sprockit/sprockit/sim_parameters.cc:973-1014", "sstmac/main/sstmac.cc:186-193", "sstmac/main/parseopts.cc:189-246"]}
{"id": "C154", "title": "Reading a parameter file ends", "statement": "Reading a file ends after finitely many steps with a set of parameters or with an error message.", "quantifier": "for every file and every set of included files", "why_tests_cant": "a test cannot show that a reader never runs for ever", "anchors": ["sprockit/sprockit/sim_parameters.cc:803-867", "sprockit/sprockit/sim_parameters.cc:952-986"]}
{"id": "C155", "title": "A thread lives until somebody has joined it", "statement": "In a program that joins or detaches every thread it creates before its main function returns, no call and no event ever uses or deletes a thread or process that has been deleted; pthread_join returns exactly when the thread has ended, and deletes it then; nobody waits for a thread that has ended; and when the main function has returned every thread has been deleted. Leaving with pthread_exit, returning from main with threads still running, and detaching a thread that has ended are safe too.", "quantifier": "All programs, all interleavings of threads, wake-ups and operating system events, any number of threads.", "why_tests_cant": "Joins, ends and deletions interleave in ways a test does not control, and a use after deletion may go unnoticed.", "anchors": ["sstmac/libraries/pthread/sstmac_pthread.cc:76-154", "sstmac/software/process/operating_system.cc:410-580", "sstmac/software/process/thread.cc:76-151", "sstmac/software/process/app.cc:439-450"]}
{"id": "C156", "title": "pthread_setaffinity_np sets the processors of the thread it names", "statement": "pthread_setaffinity_np and pthread_getaffinity_np act on the thread whose number they are given, as long as it runs, and on no other thread.", "quantifier": "All sequences of thread starts, joins, deletions and affinity calls of all processes of a node.", "why_tests_cant": "A test with one thread of rank 0 finds a thread under number 0 and passes.", "anchors": ["sstmac/software/process/operating_system.cc:823-831", "sstmac/software/process/operating_system.cc:741-761", "sstmac/libraries/pthread/sstmac_pthread.cc:783-805"]}
{"id": "C157", "title": "The dragonfly scatter router delivers every packet in at most three hops", "statement": "With dragonfly_scatter, whatever port the rotation picks at each switch, a packet always finds a port, every port it can find is wired, it makes at most two hops within a group and three between groups, each on a virtual channel of its own, and then is at its destination.", "quantifier": "All dragonflies, all pairs of switches, all choices of the rotating port sets.", "why_tests_cant": "The port sets are computed from all walks of up to three links; a test sees a few of the choices on one machine.", "anchors": ["sstmac/hardware/router/dragonfly_routing.cc:569-730"]}
{"id": "C158", "title": "Seeding restarts a random number generator", "statement": "After vec_reseed with given seeds, MWC, SHR3, CONG, SimpleCombo, SWB, LFIB4 and Combo give a sequence of values that depends on those seeds alone: nothing the object did before shows.", "quantifier": "all lists of seeds, including ones that are too short, all earlier states of the generator and all numbers of values drawn", "why_tests_cant": "a test compares a few values after a few histories; a table entry or a carry left over from before would show only after some hundred draws", "anchors": ["sstmac/common/rng.cc:156-169", "sstmac/common/rng.cc:345-364", "sstmac/common/rng.cc:375-394", "sstmac/common/rng.cc:467-473", "sstmac/common/rng.cc:512-562"]}
{"id": "C159", "title": "The generators compute the sequences they document", "statement": "MWC has a period of about 2^60; CONG has period 2^32 from every seed; SHR3 is a permutation of the words with period 2^32-1; SWB is x(n) = x(n-222) - x(n-237) - borrow; LFIB4 is x(n) = x(n-256) + x(n-179) + x(n-119) + x(n-55), all modulo 2^32.", "quantifier": "all seeds, all tables and all positions in the sequence", "why_tests_cant": "a period of 2^32 from each of 2^32 seeds cannot be run through, and a wrong lag gives numbers that look as random as the right ones", "anchors": ["sstmac/common/rng.h:202-217", "sstmac/common/rng.h:283-310", "sstmac/common/rng.h:405-430", "sstmac/common/rng.h:438-462", "sstmac/common/rng.cc:536-562"]}
