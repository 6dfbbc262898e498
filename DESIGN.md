# Formal model of sst-macro: design

The source in `/repo` (sstsimulator/sst-macro at the pinned commit) is read as text; nothing
was built or run.  The model is written in Rocq (Coq 8.16.1) under `rocq/theories`, one group
of files per part of the code:

* `XxxModel.v`: executable Gallina transcription of the C++ functions, each definition
  citing file and lines, with every simplification stated in its comment.  No proofs.
* `XxxSpec.v`: where needed, the vocabulary in which the properties are stated.
* `XxxProof.v` and others: lemmas.
* `XxxProp.v`: the property theorems, `Print Assumptions` after each, and `Example`s showing
  that the hypotheses are met by a concrete case.

Conventions: machine words that can wrap in the property at hand are `Z`/`N` with an
explicit `mod 2^64`/`mod 2^32`; values whose overflow is not part of the property are
unbounded and the comment says so.  Out-of-bounds writes, division by zero, aborts and
non-termination are explicit outcomes.  A property that is false of the code is kept at full
strength in `properties.jsonl`; a `..._refuted` theorem gives the witness, and a
`..._partial` theorem states what does hold.

Five small machines are shared: rounds of simultaneous messages (`RdModel`), rounds over one
shared buffer (`ShModel`), the per-rank DAG executor (`DagModel`), processes that run phases of
sends and receives with asynchronous delivery (`PhModel`), and a network of credit-controlled
components (`PcModel`, `PcNet`, `PcDeliver`).

## Per property: model and proof

Status `p` = proved, `~` = partial (false as stated, or part missing: see the note in `MANIFEST.json`).

| id | title | st | what is modelled and how it is proved | theorems in |
|----|-------|----|----|----|
| C01 | Serial execution order is a function of event keys | p | event queue as a key-sorted set with `std::set::insert` semantics, `runEvents` with an arbitrary handler; sortedness invariant, permutation argument | `EvProp` |
| C02 | No event is lost or executed twice | p | event queue as a key-sorted set with `std::set::insert` semantics, `runEvents` with an arbitrary handler; sortedness invariant, permutation argument | `EvProp` |
| C03 | Simulated time never goes backwards and events run at their due time | p | event queue as a key-sorted set with `std::set::insert` semantics, `runEvents` with an arbitrary handler; sortedness invariant, permutation argument | `EvProp` |
| C04 | Conservative parallel windows never deliver into the past | p | workers with queues, lookahead windows and delivery at window end; invariant that pending events are not before the worker clock; refinement of every parallel run to the serial run | `EvProp` |
| C05 | Parallel and serial runs simulate the same thing | p | workers with queues, lookahead windows and delivery at window end; invariant that pending events are not before the worker clock; refinement of every parallel run to the serial run | `EvProp` |
| C06 | Adding then subtracting a duration restores the timestamp | ~ | timestamp operators with 64-bit wrap and epochs; arithmetic, refutations at the boundaries | `TimeProp` |
| C07 | Timestamp comparisons form one total order | ~ | timestamp operators with 64-bit wrap and epochs; arithmetic, refutations at the boundaries | `TimeProp` |
| C08 | Durations divide rounding up | ~ | timestamp operators with 64-bit wrap and epochs; arithmetic, refutations at the boundaries | `TimeProp` |
| C09 | Serialize then deserialize is the identity | p | sizer, packer and unpacker over a type-indexed universe; induction on the universe | `SerProp` |
| C10 | The size pass predicts the packed length exactly | ~ | sizer, packer and unpacker over a type-indexed universe; induction on the universe | `SerProp` |
| C11 | Parallel send buffers never lose or overlap messages | p | CommBuffer with its backup buffers; invariant over allocation sequences | `CbProp` |
| C12 | Every switch is assigned to one valid worker | ~ | block partitions; arithmetic, refutation for the occupied variant | `PtProp` |
| C13 | Torus coordinates and switch ids are inverse | p | torus coordinates, wiring and routers; induction on dimensions, per-hop measures, ranking of channels | `TorusProp` |
| C14 | Torus wiring is symmetric | ~ | torus coordinates, wiring and routers; induction on dimensions, per-hop measures, ranking of channels | `TorusProp` |
| C15 | Torus minimal routing delivers in exactly the minimal distance | p | torus coordinates, wiring and routers; induction on dimensions, per-hop measures, ranking of channels | `TorusProp` |
| C16 | Torus minimal routing cannot deadlock | p | torus coordinates, wiring and routers; induction on dimensions, per-hop measures, ranking of channels | `TorusProp` |
| C17 | Valiant torus routing always delivers | p | torus coordinates, wiring and routers; induction on dimensions, per-hop measures, ranking of channels | `TorusProp` |
| C18 | Hypercube routing delivers in Hamming distance | p | hypercube, fully connected and star: wiring and routers, bit-field headers; same technique | `HcProp` |
| C19 | Fat-tree wiring is symmetric | ~ | fat-tree wiring and router with rotating counters; port arithmetic, path induction | `FtProp` |
| C20 | Fat-tree routing goes up then down and delivers | p | fat-tree wiring and router with rotating counters; port arithmetic, path induction | `FtProp` |
| C21 | Dragonfly global cables are symmetric | ~ | dragonfly group wirings, minimal, Valiant, UGAL and PAR routers; modular arithmetic, bounded paths, channel ranking | `DfProp` |
| C22 | Dragonfly minimal routing delivers within three hops on increasing virtual channels | p | dragonfly group wirings, minimal, Valiant, UGAL and PAR routers; modular arithmetic, bounded paths, channel ranking | `DfProp` |
| C23 | Cascade routing agrees with cascade wiring | ~ | cascade wiring formula and routing formula side by side; universal refutation by pigeonhole on switch 0, measures for the gateway search | `CaProp` |
| C24 | Collective schedules run every action exactly once, after its predecessors | p | DAG executor of collective actors; invariant over every completion order | `DagProp` |
| C25 | Collective message ids identify their action | p | packing of collective message ids; arithmetic, refutation on overflow | `MidProp` |
| C26 | The virtual-rank folding is a bijection | p | virtual rank map and allreduce schedule; loop invariant over rounds, all ranks and orders | `ArProp` |
| C27 | Bruck allgather delivers every block to every rank in place | p | Bruck and ring allgather run over all ranks; loop invariants over rounds, race freedom | `AgProp` |
| C28 | Bruck alltoall is a transpose | p | Bruck alltoall; digit invariant over rounds | `AaProp` |
| C29 | Allreduce gives every rank the reduction of all contributions | p | virtual rank map and allreduce schedule; loop invariant over rounds, all ranks and orders | `ArProp` |
| C30 | Broadcast reaches every rank exactly once | p | binary-tree broadcast as phases; invariant, progress and completion for all schedules | `BcProp` |
| C31 | Reverse mapping from physical to dense rank is exact | p | dense rank map search and heartbeat failure handling; induction on the search | `DmProp` |
| C32 | MPI messages between two ranks are processed in send order | p | MPI receive queue with sequence-number reordering and matching lists; refinement to a list specification | `MqProp` |
| C33 | MPI matching is non-overtaking | ~ | MPI receive queue with sequence-number reordering and matching lists; refinement to a list specification | `MqProp` |
| C34 | New communicator ids agree across members and are fresh | p | communicator factory, split, groups, cartesian communicators, tag counter; invariants, sorting, digit arithmetic | `CmProp` |
| C35 | Communicator split orders ranks by key then old rank | p | communicator factory, split, groups, cartesian communicators, tag counter; invariants, sorting, digit arithmetic | `CmProp` |
| C36 | Cartesian communicator ranks and coordinates are inverse; shift finds neighbours | ~ | communicator factory, split, groups, cartesian communicators, tag counter; invariants, sorting, digit arithmetic | `CmProp` |
| C37 | Derived datatypes pack and unpack consistently | ~ | datatype construction and pack/unpack; induction on the type, refutations | `DtProp` |
| C38 | Collective tags are unique among concurrently active collectives | ~ | communicator factory, split, groups, cartesian communicators, tag counter; invariants, sorting, digit arithmetic | `CmProp` |
| C39 | Link credits are conserved | p | credit-controlled buffers and crossbars, composed into a network; conservation invariants, delivery by a well-founded measure | `PcProp` |
| C40 | A queued packet is eventually sent | ~ | credit-controlled buffers and crossbars, composed into a network; conservation invariants, delivery by a well-founded measure | `PcProp` |
| C41 | Messages are cut into packets and reassembled exactly once | ~ | packetisation and completion counting; invariant over interleavings | `NpProp` |
| C42 | Arbitrated links never exceed their bandwidth | ~ | link arbitrators; invariant over arrivals, refutations | `AbProp` |
| C43 | Simulated mutexes exclude | ~ | one mutex with its waiters, conditionals and posted events; invariant over interleavings, refutations | `MuProp` |
| C44 | No compute node is given to two running jobs | ~ | job launcher, allocators, task mappers, outcast tree; invariants over histories, induction | `LnProp` |
| C45 | Every rank of a job is placed on exactly one allocated node | ~ | job launcher, allocators, task mappers, outcast tree; invariants over histories, induction | `LnProp` |
| C46 | Cores are held by at most one thread | ~ | both compute schedulers as machines over reservations, releases and wake-ups; invariants, bit-mask reasoning | `CpProp` |
| C47 | Time-quantum statistics conserve time | ~ | FTQ epochs, histogram and accumulators; sums by induction, boundary refutations | `StProp` |
| C48 | Histogram bins count every sample once | ~ | FTQ epochs, histogram and accumulators; sums by induction, boundary refutations | `StProp` |
| C49 | Job start is broadcast to every rank exactly once | p | job launcher, allocators, task mappers, outcast tree; invariants over histories, induction | `LnProp` |
| C50 | Automatic grids use every rank | p | cartesian grid generator and coordinates; factor loop invariant | `CgProp` |
| C51 | MPI test and wait calls complete a request once and report it | ~ | MPI test/wait functions over request arrays; fold invariants, refutations | `WtProp` |
| C52 | pthread_once runs its routine once | ~ | one mutex with its waiters, conditionals and posted events; invariant over interleavings, refutations | `MuProp` |
| C53 | Communicator rank translations are inverse | ~ | communicator rank translations; modular arithmetic | `CoProp` |
| C54 | Collective messages that arrive early are not lost | ~ | collective engine with pending messages; invariant over interleavings | `EnProp` |
| C55 | MAXLOC and MINLOC are order independent | p | MAXLOC/MINLOC and reduction operators; algebra | `LocProp` |
| C56 | Pooled allocation never hands out overlapping live chunks | p | pooled allocator; invariant over operation sequences | `PlProp` |
| C57 | Events sent across ranks during setup are executed | ~ | workers with queues, lookahead windows and delivery at window end; invariant that pending events are not before the worker clock; refinement of every parallel run to the serial run | `EvProp` |
| C58 | Time units are exact | ~ | timestamp operators with 64-bit wrap and epochs; arithmetic, refutations at the boundaries | `TimeProp` |
| C59 | Valiant torus routing cannot deadlock | ~ | torus coordinates, wiring and routers; induction on dimensions, per-hop measures, ranking of channels | `TorusProp` |
| C60 | Fully connected and star networks deliver | p | hypercube, fully connected and star: wiring and routers, bit-field headers; same technique | `HcProp` |
| C61 | Progressive adaptive hypercube routing delivers and cannot deadlock | p | hypercube, fully connected and star: wiring and routers, bit-field headers; same technique | `HcProp` |
| C62 | Fat-tree hop counts are the cable distance | ~ | fat-tree wiring and router with rotating counters; port arithmetic, path induction | `FtProp` |
| C63 | Every node hangs off exactly one switch port | p | node-to-switch maps of all topologies; arithmetic | `NodeProp` |
| C64 | Dragonfly hop counts are the cable distance | ~ | dragonfly group wirings, minimal, Valiant, UGAL and PAR routers; modular arithmetic, bounded paths, channel ranking | `DfProp` |
| C65 | Dragonfly Valiant and UGAL routing deliver within the configured virtual channels | p | dragonfly group wirings, minimal, Valiant, UGAL and PAR routers; modular arithmetic, bounded paths, channel ranking | `DfProp` |
| C66 | Dragonfly rotate routing delivers within four hops | p | dragonfly group wirings, minimal, Valiant, UGAL and PAR routers; modular arithmetic, bounded paths, channel ranking | `DfProp` |
| C67 | Dragonfly progressive adaptive routing stays within its virtual channels | ~ | dragonfly group wirings, minimal, Valiant, UGAL and PAR routers; modular arithmetic, bounded paths, channel ranking | `DfProp` |
| C68 | The node-to-rank table is the inverse of the placement | p | job launcher, allocators, task mappers, outcast tree; invariants over histories, induction | `LnProp` |
| C69 | The exclusive launcher runs one job at a time, in request order | p | job launcher, allocators, task mappers, outcast tree; invariants over histories, induction | `LnProp` |
| C70 | Allocators return exactly the nodes asked for | ~ | job launcher, allocators, task mappers, outcast tree; invariants over histories, induction | `LnProp` |
| C71 | The fan-in tree is the mirror of the fan-out tree | ~ | job launcher, allocators, task mappers, outcast tree; invariants over histories, induction | `LnProp` |
| C72 | Automatic grids have the least surface | p | cartesian grid generator and coordinates; factor loop invariant | `CgProp` |
| C73 | Automatic Cartesian allocation allocates the grid | ~ | cartesian grid generator and coordinates; factor loop invariant | `CgProp` |
| C74 | A window's cross-rank events arrive complete and in order | p | CommBuffer with its backup buffers; invariant over allocation sequences | `CbProp` |
| C75 | Null pointers survive serialization | ~ | sizer, packer and unpacker over a type-indexed universe; induction on the universe | `SerProp` |
| C76 | A packet crossing ranks keeps its state | ~ | sizer, packer and unpacker over a type-indexed universe; induction on the universe | `SerProp` |
| C77 | Mean time-quanta output is the weighted time | ~ | FTQ epochs, histogram and accumulators; sums by induction, boundary refutations | `StProp` |
| C78 | No rank leaves a barrier before every rank has entered it | p | Bruck and ring allgather run over all ranks; loop invariants over rounds, race freedom | `AgProp` |
| C79 | Ring allgather leaves every block at every rank | ~ | Bruck and ring allgather run over all ranks; loop invariants over rounds, race freedom | `AgProp` |
| C80 | A blocked MPI_Probe is served by the next matching message | ~ | MPI receive queue with sequence-number reordering and matching lists; refinement to a list specification | `MqProp` |
| C81 | Cartesian communicators number processes the way MPI prescribes | ~ | communicator factory, split, groups, cartesian communicators, tag counter; invariants, sorting, digit arithmetic | `CmProp` |
| C82 | A group object lives as long as a communicator uses it | ~ | communicator factory, split, groups, cartesian communicators, tag counter; invariants, sorting, digit arithmetic | `CmProp` |
| C83 | Group rank operations are consistent | p | communicator factory, split, groups, cartesian communicators, tag counter; invariants, sorting, digit arithmetic | `CmProp` |
| C84 | Failed ranks have no dense rank | ~ | dense rank map search and heartbeat failure handling; induction on the search | `DmProp` |
| C85 | Size and extent of derived datatypes | ~ | datatype construction and pack/unpack; induction on the type, refutations | `DtProp` |
| C86 | Packing stays inside the packed buffer | ~ | datatype construction and pack/unpack; induction on the type, refutations | `DtProp` |
| C87 | SMP communicators fit together | ~ | communicator rank translations; modular arithmetic | `CoProp` |
| C88 | Predefined integer reductions | ~ | MAXLOC/MINLOC and reduction operators; algebra | `LocProp` |
| C89 | The PISCES network delivers every packet | p | credit-controlled buffers and crossbars, composed into a network; conservation invariants, delivery by a well-founded measure | `PcProp` |
| C90 | Every message too big to be negligible goes through the network model | ~ | packetisation and completion counting; invariant over interleavings | `NpProp` |
| C91 | Signals reach a waiting thread | ~ | one mutex with its waiters, conditionals and posted events; invariant over interleavings, refutations | `MuProp` |
| C92 | Cascade cables are consistent | ~ | cascade wiring formula and routing formula side by side; universal refutation by pigeonhole on switch 0, measures for the gateway search | `CaProp` |
| C93 | Cascade groups are joined directly | p | cascade wiring formula and routing formula side by side; universal refutation by pigeonhole on switch 0, measures for the gateway search | `CaProp` |
| C94 | Gather collects every block at the root | p | gather as phases per rank; messages in bijection, ranking of phases for progress, block invariant per phase | `GaProp` |
| C95 | Scatter hands each rank its block | ~ | scatter as phases per rank; same method; universal refutation: the invariant that the result of one rank is never touched | `ScProp` |
| C96 | Reduce leaves the reduction at the root | ~ | reduce as rounds of virtual roles with a shared buffer, plus the two last messages; agreement with the allreduce rounds while a role is active | `ReProp` |
| C97 | Scan gives every rank the reduction of all lower ranks | ~ | SnModel.v models initDag, initBuffers, startShuffle and bufferAction of the scan as phases (PhModel.v); a flag says whether recv_buffer_ is set when initDag runs. SnProof.v annotates the rounds with the values of the result and send buffers. With the flag: reduction of a window that doubles each round. Without (the code): closed form of the contributions received, and a counterexample for every rank from 3 on. | `SnProp` |
| C98 | Allgatherv gives every rank every block | p | AvModel.v models the constructor, initBuffers, initDag, nelems_to_recv and finalize of BruckAllgathervActor on the machine of RdModel.v; AvProof.v proves the sums of cyclic windows of block sizes, the closed form of the schedule and the contents after each round by induction on the round. | `AvProp` |
| C99 | A SNAPPR output port keeps packets and respects credits | p | SpModel.v models SnapprOutPort (handleCredit, send, scheduleArbitration, requestArbitration, arbitrate, tryToSendPacket) over any arbitrator, with both arbitrators; SpProof.v proves the invariant of the port from laws of an arbitrator (what it holds, credits, what is waiting), SpArb.v and SpWrr.v prove the laws for FIFO and weighted round robin. | `SpProp` |
| C100 | A SNAPPR output port is never left idle with a sendable packet | p | SpModel.v models SnapprOutPort (handleCredit, send, scheduleArbitration, requestArbitration, arbitrate, tryToSendPacket) over any arbitrator, with both arbitrators; SpProof.v proves the invariant of the port from laws of an arbitrator (what it holds, credits, what is waiting), SpArb.v and SpWrr.v prove the laws for FIFO and weighted round robin. | `SpProp` |
| C101 | SNAPPR ports keep the order of a lane | ~ | SpOrder.v: the packets tried on a lane are those sent followed by those pending, an invariant of the run; counterexample for FIFO by computation. | `SpProp` |
| C102 | SNAPPR port statistics split the time | ~ | SpModel.v models SnapprOutPort (handleCredit, send, scheduleArbitration, requestArbitration, arbitrate, tryToSendPacket) over any arbitrator, with both arbitrators; SpProof.v proves the invariant of the port from laws of an arbitrator (what it holds, credits, what is waiting), SpArb.v and SpWrr.v prove the laws for FIFO and weighted round robin. | `SpProp` |
| C103 | Priorities and bandwidth caps of the weighted round-robin arbitrator | ~ | SpSched.v: calls of the arbitrator as a trace with times; what each call does to type, delay, priority and next_free of a lane, and which lane a pop chooses. SpQos.v: bounds on next_free from the history (C103), and for C104 a measure, the lanes of the priority whose next_free is not after the deadline, that every late pop decreases. | `SpQos` |
| C104 | A lane with a minimum bandwidth is served after its deadline | ~ | SpSched.v: calls of the arbitrator as a trace with times; what each call does to type, delay, priority and next_free of a lane, and which lane a pop chooses. SpQos.v: bounds on next_free from the history (C103), and for C104 a measure, the lanes of the priority whose next_free is not after the deadline, that every late pop decreases. | `SpQos` |
| C105 | The SNAPPR NIC injects every message exactly once, in order and within its buffer | p | SjModel.v models copyToNicBuffer, doSend, handleCredit, injectPacket and the queues of the SNAPPR NIC as a machine whose histories are sends, credits and packets. SjProof.v proves the invariant for queues that are lists, SjRing.v that the ring behaves as such a list while it is not full (a simulation) and that the loop ends, SjOrder.v the orders. | `SjProp` |
| C106 | Round-robin injection at the SNAPPR NIC is fair and loses nothing | ~ | SjModel.v models copyToNicBuffer, doSend, handleCredit, injectPacket and the queues of the SNAPPR NIC as a machine whose histories are sends, credits and packets. SjProof.v proves the invariant for queues that are lists, SjRing.v that the ring behaves as such a list while it is not full (a simulation) and that the loop ends, SjOrder.v the orders. | `SjProp` |
| C107 | Packets leave the SNAPPR NIC on the lane of their quality of service | ~ | SjModel.v models copyToNicBuffer, doSend, handleCredit, injectPacket and the queues of the SNAPPR NIC as a machine whose histories are sends, credits and packets. SjProof.v proves the invariant for queues that are lists, SjRing.v that the ring behaves as such a list while it is not full (a simulation) and that the loop ends, SjOrder.v the orders. | `SjProp` |
| C108 | Point-to-point messages deliver the data of the send | p | PdModel.v models sends, receives, the eager and rendezvous protocols, the NIC copies and the memory behind every pointer (blocks with sizes, deleted blocks) as a machine whose steps are taken in any order. PdInv.v: invariant saying for each kind of message which block it owns, what the block holds and which receive it is for, plus the bookkeeping of flows and completions; PdMove.v and PdRun.v prove it for every step. PdSettle.v: a weight that every move lowers. PdLeak.v: every live block is owned. PdExec.v runs concrete programs for the examples. | `PdProp` |
| C109 | Matched sends and receives complete exactly once | p | PdModel.v models sends, receives, the eager and rendezvous protocols, the NIC copies and the memory behind every pointer (blocks with sizes, deleted blocks) as a machine whose steps are taken in any order. PdInv.v: invariant saying for each kind of message which block it owns, what the block holds and which receive it is for, plus the bookkeeping of flows and completions; PdMove.v and PdRun.v prove it for every step. PdSettle.v: a weight that every move lowers. PdLeak.v: every live block is owned. PdExec.v runs concrete programs for the examples. | `PdProp` |
| C110 | Point-to-point messages use memory safely | p | PdModel.v models sends, receives, the eager and rendezvous protocols, the NIC copies and the memory behind every pointer (blocks with sizes, deleted blocks) as a machine whose steps are taken in any order. PdInv.v: invariant saying for each kind of message which block it owns, what the block holds and which receive it is for, plus the bookkeeping of flows and completions; PdMove.v and PdRun.v prove it for every step. PdSettle.v: a weight that every move lowers. PdLeak.v: every live block is owned. PdExec.v runs concrete programs for the examples. | `PdProp` |
| C111 | Messages longer than the receive are rejected | ~ | PdModel.v models sends, receives, the eager and rendezvous protocols, the NIC copies and the memory behind every pointer (blocks with sizes, deleted blocks) as a machine whose steps are taken in any order. PdInv.v: invariant saying for each kind of message which block it owns, what the block holds and which receive it is for, plus the bookkeeping of flows and completions; PdMove.v and PdRun.v prove it for every step. PdSettle.v: a weight that every move lowers. PdLeak.v: every live block is owned. PdExec.v runs concrete programs for the examples. | `PdProp` |
| C112 | Memory of finished messages is released | ~ | PdModel.v models sends, receives, the eager and rendezvous protocols, the NIC copies and the memory behind every pointer (blocks with sizes, deleted blocks) as a machine whose steps are taken in any order. PdInv.v: invariant saying for each kind of message which block it owns, what the block holds and which receive it is for, plus the bookkeeping of flows and completions; PdMove.v and PdRun.v prove it for every step. PdSettle.v: a weight that every move lowers. PdLeak.v: every live block is owned. PdExec.v runs concrete programs for the examples. | `PdProp` |
| C113 | Dragonfly+ cables, coordinates and nodes fit together | p | DpModel.v models the dragonfly+ ids, cables, nodes and reported distance, the constructor checks and both route functions on top of the group wirings of DfModel.v. DpProof.v finds the far end of every port, shows that global port p leads to group p/covering (own group skipped) whenever the constructor checks pass and no link is missing, and follows a packet through leaf, upper switch, at most two global cables and down; channels climb in the order up, global 0, global 1, down, which gives deadlock freedom. The random draw and the queue lengths are arbitrary inputs. | `DpProp` |
| C114 | Dragonfly+ minimal routing delivers by a shortest path without deadlock | ~ | DpModel.v models the dragonfly+ ids, cables, nodes and reported distance, the constructor checks and both route functions on top of the group wirings of DfModel.v. DpProof.v finds the far end of every port, shows that global port p leads to group p/covering (own group skipped) whenever the constructor checks pass and no link is missing, and follows a packet through leaf, upper switch, at most two global cables and down; channels climb in the order up, global 0, global 1, down, which gives deadlock freedom. The random draw and the queue lengths are arbitrary inputs. | `DpProp` |
| C115 | Dragonfly+ adaptive routing delivers with at most one detour and without deadlock | p | DpModel.v models the dragonfly+ ids, cables, nodes and reported distance, the constructor checks and both route functions on top of the group wirings of DfModel.v. DpProof.v finds the far end of every port, shows that global port p leads to group p/covering (own group skipped) whenever the constructor checks pass and no link is missing, and follows a packet through leaf, upper switch, at most two global cables and down; channels climb in the order up, global 0, global 1, down, which gives deadlock freedom. The random draw and the queue lengths are arbitrary inputs. | `DpProp` |
| C116 | Dragonfly+ reported hop count is the real one | ~ | DpModel.v models the dragonfly+ ids, cables, nodes and reported distance, the constructor checks and both route functions on top of the group wirings of DfModel.v. DpProof.v finds the far end of every port, shows that global port p leads to group p/covering (own group skipped) whenever the constructor checks pass and no link is missing, and follows a packet through leaf, upper switch, at most two global cables and down; channels climb in the order up, global 0, global 1, down, which gives deadlock freedom. The random draw and the queue lengths are arbitrary inputs. | `DpProp` |
| C117 | A thread does not sleep while what it waits for is there | ~ | PqModel.v: threads of a node and MultiProgressQueue as a transition system; the simulator may deliver items and execute pending events in any order, the active thread may poll, post, compute, start, join and end. Invariant over all good histories: per thread the list of wake-ups under way is exactly the one its wait needs, waiters are on exactly one list, queues with waiters are empty, timeout counters are never ahead. Conservation of items by induction over histories. Refutations by concrete histories. | `PqProp` |
| C118 | Completion queues hand out each item once and in order | ~ | PqModel.v: threads of a node and MultiProgressQueue as a transition system; the simulator may deliver items and execute pending events in any order, the active thread may poll, post, compute, start, join and end. Invariant over all good histories: per thread the list of wake-ups under way is exactly the one its wait needs, waiters are on exactly one list, queues with waiters are empty, timeout counters are never ahead. Conservation of items by induction over histories. Refutations by concrete histories. | `PqProp` |
| C119 | Threads continue only for the reason they stopped | ~ | PqModel.v: threads of a node and MultiProgressQueue as a transition system; the simulator may deliver items and execute pending events in any order, the active thread may poll, post, compute, start, join and end. Invariant over all good histories: per thread the list of wake-ups under way is exactly the one its wait needs, waiters are on exactly one list, queues with waiters are empty, timeout counters are never ahead. Conservation of items by induction over histories. Refutations by concrete histories. | `PqProp` |
| C120 | Broadcast carries the root's elements into every rank's elements | ~ | McModel.v models startMpiCollective, the start functions of bcast, gather, scatter, allgather and alltoall and finishCollectiveOp on a memory per rank; between start and finish runs the engine model of C27-C30 with bytes as elements, in any interleaving. McProof.v connects packed buffers with the type maps of DtSpec.v; McProp.v puts the engine theorems between packing and unpacking. For alltoall in place the two overlapping copies of initBuffers are modelled and the block that actually arrives is computed. | `McProp` |
| C121 | Gather, scatter, allgather and alltoall move user elements, in place too | ~ | McModel.v models startMpiCollective, the start functions of bcast, gather, scatter, allgather and alltoall and finishCollectiveOp on a memory per rank; between start and finish runs the engine model of C27-C30 with bytes as elements, in any interleaving. McProof.v connects packed buffers with the type maps of DtSpec.v; McProp.v puts the engine theorems between packing and unpacking. For alltoall in place the two overlapping copies of initBuffers are modelled and the block that actually arrives is computed. | `McProp` |
| C122 | Allgatherv puts every rank's elements at that rank's displacement | ~ | VcModel.v models the start and finish functions of allgatherv and alltoallv on top of McModel.v and the chained sends and receives of DirectAlltoallvActor as a transition system. Allgatherv: the engine theorem of C98 between packing and unpacking. Alltoallv: an invariant per pair of ranks (message under way iff sent and not received), a count of flags for the bound and induction over the loop index for progress. | `VcProp` |
| C123 | Alltoallv sends every pair of ranks its counts, once, and always ends | ~ | VcModel.v models the start and finish functions of allgatherv and alltoallv on top of McModel.v and the chained sends and receives of DirectAlltoallvActor as a transition system. Allgatherv: the engine theorem of C98 between packing and unpacking. Alltoallv: an invariant per pair of ranks (message under way iff sent and not received), a count of flags for the bound and induction over the loop index for progress. | `VcProp` |
| C124 | SMP allgather gives the result of the plain allgather | ~ | chains of collectives over SMP and owner communicators; per stage the run theorems of C27, C28, C30, C94, composed through what each rank holds between stages | `SmProp` |
| C125 | SMP alltoall gives the result of the plain alltoall | ~ | chains of collectives over SMP and owner communicators; per stage the run theorems of C27, C28, C30, C94, composed through what each rank holds between stages | `SmProp` |
| C126 | SMP allreduce gives the result of the plain allreduce | ~ | chains of collectives over SMP and owner communicators; per stage the run theorems of C27, C28, C30, C94, composed through what each rank holds between stages | `SmProp` |
| C127 | Messages that arrive before their process are not lost | p | NdModel: the libraries of an operating system (registerLib, unregisterLib, handleRequest), the SumiServer of a node, a SimTransport with completion queues, and one step function over arrivals, delayed deliveries, process starts and ends and queue operations, with failure as a result. NdProof: an invariant (every waiting message has an empty slot and the reverse, held messages have no callback, the server is found under its name) and the content of a queue, read along the path of a message, which each step keeps up to the arriving message. NdRun: where recorded calls come from, and that proper use never fails. Time is not modelled: delayed deliveries happen at any later moment. | `NdProp` |
| C128 | Messages for one queue are delivered in the order of arrival on the node | ~ | NdModel: the libraries of an operating system (registerLib, unregisterLib, handleRequest), the SumiServer of a node, a SimTransport with completion queues, and one step function over arrivals, delayed deliveries, process starts and ends and queue operations, with failure as a result. NdProof: an invariant (every waiting message has an empty slot and the reverse, held messages have no callback, the server is found under its name) and the content of a queue, read along the path of a message, which each step keeps up to the arriving message. NdRun: where recorded calls come from, and that proper use never fails. Time is not modelled: delayed deliveries happen at any later moment. | `NdProp` |
| C129 | Completion queues of a process are set up safely | ~ | NdModel: the libraries of an operating system (registerLib, unregisterLib, handleRequest), the SumiServer of a node, a SimTransport with completion queues, and one step function over arrivals, delayed deliveries, process starts and ends and queue operations, with failure as a result. NdProof: an invariant (every waiting message has an empty slot and the reverse, held messages have no callback, the server is found under its name) and the content of a queue, read along the path of a message, which each step keeps up to the arriving message. NdRun: where recorded calls come from, and that proper use never fails. Time is not modelled: delayed deliveries happen at any later moment. | `NdProp` |
| C130 | A node is clean after its processes ended | ~ | NdModel: the libraries of an operating system (registerLib, unregisterLib, handleRequest), the SumiServer of a node, a SimTransport with completion queues, and one step function over arrivals, delayed deliveries, process starts and ends and queue operations, with failure as a result. NdProof: an invariant (every waiting message has an empty slot and the reverse, held messages have no callback, the server is found under its name) and the content of a queue, read along the path of a message, which each step keeps up to the arriving message. NdRun: where recorded calls come from, and that proper use never fails. Time is not modelled: delayed deliveries happen at any later moment. | `NdProp` |
| C131 | SMP neighbours are the ranks on the node | ~ | NdModel: the libraries of an operating system (registerLib, unregisterLib, handleRequest), the SumiServer of a node, a SimTransport with completion queues, and one step function over arrivals, delayed deliveries, process starts and ends and queue operations, with failure as a result. NdProof: an invariant (every waiting message has an empty slot and the reverse, held messages have no callback, the server is found under its name) and the content of a queue, read along the path of a message, which each step keeps up to the arriving message. NdRun: where recorded calls come from, and that proper use never fails. Time is not modelled: delayed deliveries happen at any later moment. | `NdProp` |
| C132 | Requests reach the library of their name once | ~ | NdModel: the libraries of an operating system (registerLib, unregisterLib, handleRequest), the SumiServer of a node, a SimTransport with completion queues, and one step function over arrivals, delayed deliveries, process starts and ends and queue operations, with failure as a result. NdProof: an invariant (every waiting message has an empty slot and the reverse, held messages have no callback, the server is found under its name) and the content of a queue, read along the path of a message, which each step keeps up to the arriving message. NdRun: where recorded calls come from, and that proper use never fails. Time is not modelled: delayed deliveries happen at any later moment. | `NdProp` |
| C133 | SCULPIN ports send every packet once, by priority and in order | p | SlModel: an output port of a SCULPIN switch (next_free, sequence number, priority queue as the sorted std::set with its comparison, scheduled pulls) driven by arrivals and pulls in the order of their times, with any order at equal times; the delayed try of handlePayload; cutting, injecting and ejecting in the NIC. SlProof has one invariant over all runs: the queue is sorted, exactly one pull is scheduled at next_free if and only if something waits, the packets sent and waiting are those tried, per priority in order. SlProp puts ports together to paths (each port with an arbitrary run of its own) and proves order and causality by induction over the path. | `SlProp` |
| C134 | A SCULPIN link carries one packet at a time and is never idle while one waits | p | SlModel: an output port of a SCULPIN switch (next_free, sequence number, priority queue as the sorted std::set with its comparison, scheduled pulls) driven by arrivals and pulls in the order of their times, with any order at equal times; the delayed try of handlePayload; cutting, injecting and ejecting in the NIC. SlProof has one invariant over all runs: the queue is sorted, exactly one pull is scheduled at next_free if and only if something waits, the packets sent and waiting are those tried, per priority in order. SlProp puts ports together to paths (each port with an arbitrary run of its own) and proves order and causality by induction over the path. | `SlProp` |
| C135 | SCULPIN packets keep causality and order along a path | p | SlModel: an output port of a SCULPIN switch (next_free, sequence number, priority queue as the sorted std::set with its comparison, scheduled pulls) driven by arrivals and pulls in the order of their times, with any order at equal times; the delayed try of handlePayload; cutting, injecting and ejecting in the NIC. SlProof has one invariant over all runs: the queue is sorted, exactly one pull is scheduled at next_free if and only if something waits, the packets sent and waiting are those tried, per priority in order. SlProp puts ports together to paths (each port with an arbitrary run of its own) and proves order and causality by induction over the path. | `SlProp` |
| C136 | The SCULPIN NIC cuts, injects and hands up messages in order | ~ | SlModel: an output port of a SCULPIN switch (next_free, sequence number, priority queue as the sorted std::set with its comparison, scheduled pulls) driven by arrivals and pulls in the order of their times, with any order at equal times; the delayed try of handlePayload; cutting, injecting and ejecting in the NIC. SlProof has one invariant over all runs: the queue is sorted, exactly one pull is scheduled at next_free if and only if something waits, the packets sent and waiting are those tried, per priority in order. SlProp puts ports together to paths (each port with an arbitrary run of its own) and proves order and causality by induction over the path. | `SlProp` |
| C137 | Simulated threads have stacks of their own | ~ | SkModel: StackAlloc with its chunks (alignment, step, guards) and the free list; mmap may return any page-aligned address that is not in use. SkProp: one invariant over all runs; own_data is the address arithmetic of get_sstmac_tls. | `SkProp` |
| C138 | Global variables have separate, aligned places in the order of declaration | ~ | GvModel: one GlobalVariableContext (offsets, allocSize, buffer of initial values with its real length, init functions, active segments) and the segments of processes as byte lists, with every memcpy checked against the real length of the buffer (Bad: outside, or freed memory). GvSpec: an abstract machine where each process has a value per variable and byte, no offsets. GvProof: a simulation between the two over all histories; GvProp: refinement, isolation, initial values, and the histories for which it fails. | `GvProp` |
| C139 | Every simulated process has its own global variables | ~ | GvModel: one GlobalVariableContext (offsets, allocSize, buffer of initial values with its real length, init functions, active segments) and the segments of processes as byte lists, with every memcpy checked against the real length of the buffer (Bad: outside, or freed memory). GvSpec: an abstract machine where each process has a value per variable and byte, no offsets. GvProof: a simulation between the two over all histories; GvProp: refinement, isolation, initial values, and the histories for which it fails. | `GvProp` |
| C140 | LogP injection serialises the messages of a node | ~ | LpModel: all messages sent to one node, with next_out_free_ of every sender, the delay of LogPSwitch::send, the event queue as a stable sort by arrival, and mtlHandle at the receiver with the underflow of operator-(Timestamp, TimeDelta) as a value greater than every time and the conversion to int of negligibleSize. LpProp: generalised inductions over the senders' states; the sort commutes with the filter for one sender. | `LpProp` |
| C141 | LogP delivers each message once and receptions do not overlap | ~ | LpModel: all messages sent to one node, with next_out_free_ of every sender, the delay of LogPSwitch::send, the event queue as a stable sort by arrival, and mtlHandle at the receiver with the underflow of operator-(Timestamp, TimeDelta) as a value greater than every time and the conversion to int of negligibleSize. LpProp: generalised inductions over the senders' states; the sort commutes with the filter for one sender. | `LpProp` |
| C142 | LogP keeps the order of messages between two nodes | ~ | LpModel: all messages sent to one node, with next_out_free_ of every sender, the delay of LogPSwitch::send, the event queue as a stable sort by arrival, and mtlHandle at the receiver with the underflow of operator-(Timestamp, TimeDelta) as a value greater than every time and the conversion to int of negligibleSize. LpProp: generalised inductions over the senders' states; the sort commutes with the filter for one sender. | `LpProp` |
| C143 | LogP memory serves accesses one after the other | p | MmModel: Link::newAccess and InstructionProcessor::compute; MmProp: induction over the accesses, arithmetic of the rounding. | `MmProp` |
| C144 | A computation takes at least its instructions and its memory accesses | ~ | MmModel: Link::newAccess and InstructionProcessor::compute; MmProp: induction over the accesses, arithmetic of the rounding. | `MmProp` |
| C145 | PISCES memory completes every access once and keeps its channels | ~ | MmModel: channels_available_, stalled_requests_, channel_requests_ and the scheduled events of PiscesMemoryModel; the times of the arbitrator are abstracted: events are executed in any order, so the theorem holds for any arbitration; callbacks may call accessFlow. MmProof: an invariant with holes (channels and requests held by the function being executed) and an exact count of events; MmProp: the theorem and the two runs for which it fails, one for every size and one for every number of channels. | `MmProp` |
| C146 | SNAPPR memory completes every flow once | p | MmModel: flows_, channels_, channelInterleaver_ and timed events of SnapprMemoryModel; events are executed in the order of times, at equal times in any order. MmSn: invariants for flows, channels and responses, progress and an exact count of events. | `MmProp` |
| C147 | Channels of SNAPPR memory serve requests one after the other in turn | p | MmModel: flows_, channels_, channelInterleaver_ and timed events of SnapprMemoryModel; events are executed in the order of times, at equal times in any order. MmSn: invariants for flows, channels and responses, progress and an exact count of events. | `MmProp` |
| C148 | Persistent requests can be started again and again | ~ | one rank as a step function over calls and finished transfers; simulation with a machine of request phases (inactive, active, over) written from the MPI standard | `PsProp` |
| C149 | Communication with MPI_PROC_NULL does nothing and is over at once | ~ | one rank as a step function over calls and finished transfers; simulation with a machine of request phases (inactive, active, over) written from the MPI standard | `PsProp` |
| C150 | A polling loop sees its message | ~ | polling loops over a schedule of arrivals; bound on the number of calls by a measure of messages and time-outs left | `PoProp` |
| C151 | All ranks of a parallel run have the same parameters | ~ | PaModel has the parser line by line on lists of characters and the printer. PaTrip: by induction on the tree, reading the printed lines in any surrounding context rebuilds the tree. PaInv: an invariant of the parser (values trimmed, not ending in an opening brace, not starting with a dollar sign, keys without dot and equals sign, no key twice) leaves only conditions on names. | `PaProp` |
| C152 | A parameter file means what its lines say | p | PaSpec gives the meaning of a file as a table without trees; PaMean shows by a simulation over zipper and place that the parser agrees with it, also in how it fails. read_in_pieces composes files; the other theorems are about one more assignment after any file. | `PaProp` |
| C153 | The command line overrides the file | p | Nested induction over the merged tree (PaMerge); the result is described by lookup only. | `PaProp` |
| C154 | Reading a parameter file ends | ~ | The parser has fuel for includes and chains of variables; an answer More for every fuel is a reader that never ends. The partial theorem excludes it, the others have witnesses for every fuel. | `PaProp` |
| C155 | A thread lives until somebody has joined it | ~ | ThModel follows create, join, detach, exit, return, unblock, cancellation and deletion over a queue of operating system events; ThProof keeps a 25-clause invariant of legal programs, ThStep shows that every legal step keeps it and harms nothing. | `ThProp` |
| C156 | pthread_setaffinity_np sets the processors of the thread it names | ~ | ThAff is the table of running threads; an invariant says what is filed where, and three short runs are the counterexamples. | `ThProp` |
| C157 | The dragonfly scatter router delivers every packet in at most three hops | ~ | SgModel follows the recursive table builder over the topology of DfModel; the table is proved to hold exactly the first ports of walks with at most one global link, and the trip of a packet keeps a walk to its destination that fits the hops left. | `SgProp` |
| C158 | Seeding restarts a random number generator | p | the generators are functions on words; a table is a function and two states are related when they agree on the 256 places, the counter and the carry; filling gives related states and drawing keeps them related | `RnProp` |
| C159 | The generators compute the sequences they document | ~ | CONG: n steps are a geometric sum and 2^k divides it exactly when it divides n, by induction on k; MWC: a step of one half divides by 2^16 modulo a prime p, and the order of 2^16 is the prime (p-1)/2; the four primes are checked by trial division run in the kernel; SHR3: each of the three mixes is inverted bit by bit; the tables: a ring of 256 places written one place further each time holds the last 256 values, so an index is a lag; the documented lags and period are refuted by computed witnesses | `RnProp` |

## Modelled code

Cited by the model files (file names taken from the comments of the definitions; line numbers are there).

| model file | repository files cited |
|----|----|
| `AaModel.v` | alltoall.cc, collective_actor.cc |
| `AbModel.v` | pisces_arbitrator.cc, pisces_arbitrator.h, pisces_sender.cc, timestamp.h |
| `AgModel.v` | allgather.cc, allgather.h, collective_actor.h, collective_actor.cc |
| `ArModel.v` | allreduce.cc, collective_actor.cc, collective_actor.h, comm_functions.h |
| `AvModel.v` | allgatherv.cc, allgatherv.h |
| `BcModel.v` | bcast.cc |
| `CaModel.v` | cascade.cc, cascade.h, cascade_routing.cc |
| `CbModel.v` | parallel_runtime.h, parallel_runtime.cc, mpi_runtime.cc, ipc_event.h, event_manager.cc, clock_cycle_event_container.cc |
| `CgModel.v` | cartgrid.cc, cart_allocation.cc |
| `CmModel.v` | mpi_group.cc, mpi_comm.cc, mpi_comm_factory.cc, mpi_comm_cart.cc, mpi_api_comm.cc, mpi_api_group.cc, mpi_group.h, mpi_integers.h, mpi_comm.h |
| `CoModel.v` | communicator.h, communicator.cc, sim_transport.cc, mpi_comm.cc |
| `CpModel.v` | simple_compute_scheduler.cc, cpuset_compute_scheduler.cc, thread.h, simple_compute_scheduler.h, operating_system.cc, cpuset_compute_scheduler.h |
| `DagModel.v` | collective_actor.cc |
| `DfModel.v` | dragonfly.h, dragonfly_routing.cc, dragonfly.cc |
| `DmModel.v` | dense_rank_map.cc, dense_rank_map.h |
| `DpModel.v` | dragonfly_plus_routing.cc, dragonfly_plus.cc, dragonfly_plus.h |
| `DtModel.v` | mpi_api_type.cc, mpi_type.h, mpi_type.cc, mpi_protocol.cc, mpi_queue_recv_request.cc, mpi_queue.cc |
| `EnModel.v` | sim_transport.cc, collective.cc, collective_actor.h, collective.h |
| `EvModel.v` | sst_event.h, event_manager.h, event_manager.cc, event_scheduler.cc, event_scheduler.h, clock_cycle_event_container.cc, multithreaded_event_container.cc, manager.cc |
| `FtModel.v` | fat_tree.h, fat_tree_router.cc, fat_tree.cc |
| `GaModel.v` | gather.cc |
| `GvModel.v` | app.cc, thread_info.cc, global.h, global.cc, thread.cc |
| `HcModel.v` | hypercube.cc, fully_connected.cc, hypercube_routing.cc, hypercube.h, packet.h, router.cc, star.h, star.cc |
| `LnModel.v` | random_task_mapper.cc, rng.h, first_available_allocation.cc, random_allocation.cc, stride_allocation.cc, greedy_dfly_allocation.cc, dragonfly.h, cart_allocation.cc, node_id_allocation.cc, launch_request.cc, hostname_allocation.cc, task_mapper.cc, block_task_mapper.cc, round_robin_task_mapper.cc, node_id_task_mapper.cc, coordinate_task_mapper.cc, job_launcher.h, task_mapping.cc, job_launcher.cc, operating_system.cc, app_launcher.cc |
| `LocModel.v` | comm_functions.h, mpi_api_type.cc, mpi_type.h, mpi_type.cc |
| `LpModel.v` | logp_nic.cc, nic.cc, logp_switch.cc, interconnect.cc, nic.h, timestamp.h |
| `McModel.v` | mpi_api_collectives.cc, sim_transport.cc, mpi_types.h, mpi_api.h, mpi_request.h, allgather.cc, alltoall.cc, gather.cc |
| `MmModel.v` | logp_memory_model.cc, pisces_memory_model.cc, snappr_mem.cc, instruction_processor.cc, pisces_memory_model.h, snappr_mem.h |
| `MqModel.v` | mpi_queue.cc, mpi_queue_recv_request.cc, mpi_queue_probe_request.cc, eager0.cc, eager1.cc, rendezvous_rdma.cc, mpi_protocol.h, mpi_message.h, mpi_queue_recv_request.h, mpi_types.h, mpi_queue.h |
| `MuModel.v` | sstmac_pthread.cc, thread.cc, operating_system.cc, mutex.h, sstmac_pthread_impl.h |
| `NdModel.v` | operating_system.cc, sim_transport.cc, sim_transport.h, event_scheduler.h, operating_system.h, message.h, transport.h, node.cc, library.cc |
| `NetModel.v` | topology.h, interconnect.cc |
| `NpModel.v` | pisces_nic.cc, recv_cq.cc, nic.cc, flow.h, pisces_nic.h, pisces_buffer.cc, nic.h, recv_cq.h |
| `PaModel.v` | sim_parameters.cc, basic_string_tokenizer.h, sim_parameters.h, sstmac.cc |
| `PcModel.v` | pisces_sender.cc, pisces_crossbar.cc, pisces_buffer.cc, pisces_switch.cc, pisces_nic.cc, pisces.h, pisces_crossbar.h, pisces_buffer.h |
| `PdModel.v` | mpi_queue.cc, mpi_queue_recv_request.cc, sim_transport.cc, message.h, nic.cc, mpi_type.cc, mpi_protocol.h, network_message.h, transport.h, network_message.cc, mpi_message.h, rendezvous_rdma.cc, mpi_protocol.cc, eager0.cc, eager1.cc |
| `PhModel.v` | bcast.cc, gather.cc, scatter.cc, reduce.cc, collective_actor.cc |
| `PlModel.v` | thread_safe_new.h |
| `PoModel.v` | mpi_api.cc, mpi_api.h, mpi_api_test.cc, mpi_api_probe.cc, mpi_queue.cc, progress_queue.h |
| `PqModel.v` | operating_system.cc, unblock_event.cc, progress_queue.h, progress_queue.cc, thread.cc, sim_transport.cc |
| `PsModel.v` | mpi_api_send_recv.cc, mpi_api_wait.cc, mpi_api_test.cc, mpi_request.h, mpi_request.cc, mpi_api.cc, mpi_queue.cc, mpi_types.h, eager0.cc, eager1.cc, rendezvous_rdma.cc |
| `PtModel.v` | sim_partition.cc |
| `RdModel.v` | allgather.cc, allreduce.cc, alltoall.cc, collective_actor.cc, comm_functions.h |
| `ReModel.v` | reduce.cc, allreduce.cc |
| `RnModel.v` | rng.h, rng.cc |
| `ScModel.v` | scatter.cc, collective_actor.cc |
| `SerModel.v` | serializer.h, serializer.cc, serialize_packer.h, serialize_unpacker.h, serialize_serializable.cc, serialize.h, network_message.cc, serialize_list.h, serialize_vector.h, serialize_buffer_accessor.h, serialize_set.h, serialize_map.h, flow.h, message.cc, packet.cc, pisces.cc, pisces.h, packet.h |
| `SgModel.v` | dragonfly_routing.cc |
| `ShModel.v` | allreduce.cc, reduce.cc |
| `SjModel.v` | snappr_nic.cc, snappr_nic.h |
| `SkModel.v` | stack_alloc.cc, stack_alloc_chunk.cc, tls.h, global.h, thread_info.cc |
| `SlModel.v` | sculpin_nic.cc, sculpin.h, sculpin_switch.h, sculpin_switch.cc |
| `SmModel.v` | sim_transport.cc, collective.h, gather.cc, alltoall.cc, collective.cc |
| `SnModel.v` | scan.cc, collective_actor.cc, collective_actor.h |
| `SpModel.v` | snappr_outport.cc, snappr_outport.h, snappr.h |
| `StModel.v` | ftq.cc, ftq.h, stat_histogram.h |
| `ThModel.v` | sstmac_pthread.cc, thread.cc, app.cc, operating_system.cc, thread.h |
| `TimeModel.v` | timestamp.h, timestamp.cc |
| `TorusModel.v` | torus.cc, torus_routing.cc, torus.h, topology.h, packet.cc |
| `VcModel.v` | mpi_api_vcollectives.cc, alltoallv.cc, mpi_request.cc, sim_transport.cc, collective_actor.cc |
| `WtModel.v` | mpi_api_wait.cc, mpi_api_test.cc, mpi_request.h, mpi_api.cc, mpi_queue.cc, mpi_request.cc |

## Trusted base

* Coq's kernel (8.16.1) as run by `coqc`; `vm_compute` is used in examples and refutations.
  No axioms are used (last section); no kernel check is switched off; no plugins beyond those
  the standard library loads.
* The reading of the C++ code into the model.  Nothing was executed, so the model is only as
  good as its citations; each definition names the lines it stands for.
* That the C++ objects not modelled (below) do not interfere with those modelled, in particular
  that memory the modelled functions do not touch is not changed behind their back.

### Wrong programs

`seeded/LOG.jsonl` has one line for each edit of the model that was tried.  `first_failing_proofs`
is where the build stopped; `theorems_failed` lists the theorems whose proofs depend on that place,
which does not by itself show that their statements are false for the edited model: many edits are
noticed by a helper lemma first.  On the lines with a field `evaluated` the statements were also
evaluated on a run of the edited model, with the result given there; these are the edits of the
SNAPPR injection queues, of `SpModel.release` and of the point-to-point model, not the others.  The evaluation computes
hand-written boolean versions of the statements on one run (for the ring of queues, with a ring
of 4 instead of 1024), so it is evidence, not a proof, that the edit makes the statement false.

### Not modelled

* Floating-point: bandwidth, latency and byte delays are integers of ticks; `double` rounding in
  the LogP, SNAPPR and MACRELS models and in compute models is not modelled.
* Time in the MPI, SUMI and collective layers: messages are delivered in any order the lower
  layer allows, so results hold for every timing, but no timing claim is made there.
* The contexts (ucontext, fcontext, pthread) that switch user-space threads, 
  the clang source-to-source compiler, the skeleton runtimes (OMP,
  OTF2, DUMPI parsing), the SST-core integrated build, Python bindings and the ELI registry.
* SNAPPR switches other than through the interfaces above
  (of SNAPPR memory, the output port with its arbitrators and the injection side of the NIC; not debug_qos, scale, the deadlock check and runs
  without congestion); the random
  latency and the contention model of LogP switches; routing
  tables read from JSON; visualisation output (VTK), spyplots, call graphs.
* Numbers and units in parameter values, debug output, statistics output formats.
* `std::` containers are taken at their documented meaning (`set`, `map`, `list`, `vector`).

## Findings

Places where the code does not do what its interface promises.  Those marked `*` are stated as
`..._refuted` theorems; the others were noticed while reading.

* Events: `*` an event due at the stop time can share the key of the stop event and is dropped;
  `*` an IPC event sent during setup is missing from the first lookahead vote;
  `receiveIncomingEvents` aborts after stop; the multithreaded `handleIncoming` has a
  syntax slip (`SST_SER(sz;`); `sendRecvMessages` drops epochs.
* Time: `*` subtraction and carry between epochs, `<=` across epochs, 32-bit truncation of
  divisions, inexact unit constants.
* Topologies: `*` torus dimension of size 1; `*` fat-tree input-port collisions; `*` dragonfly
  single wiring not symmetric for odd groups, `minimalDistance`, PAR virtual-channel overflow;
  Valiant loops that never end on tiny shapes, scatter's `port > a`; `*` cascade routing and wiring
  formulas disagree in every shape with two or more groups; `*` torus Valiant cyclic waits.
* Flow control: `*` the credit check ignores the number of virtual channels, so a packet can stall for ever; packets on one
  virtual channel can be reordered; output ports are truncated to 8 bits; messages of length
  2^31 and more bypass the network; `*` the cut-through arbitrator with packets of at most two
  bytes.
* SNAPPR: `*` with the FIFO port arbitrator small packets overtake large ones of their lane;
  `*` xmit_stall misses waiting time; `*` a "max" lane that is alone is not capped; `*` a lane that runs out of
  credits keeps its old deadline and can starve a "min" lane.
  `*` the round-robin injection queue of the NIC takes itself for empty with 1024 messages; `*`
  rdma_get_qos does not change the lane of a get request; the injection queue priority_fifo is never
  registered (its macro names FIFOQueue), and its insert would never make a queue ready.
* Schedulers and threads: `*` the simple compute scheduler hands out the same core twice and
  wakes one thread per release; `*` the cpuset scheduler aliases cores above 31; `*` trylock
  does not take the mutex; `*` a signal sent by the holder gives the mutex away; `*` signals
  reach waiters of other conditions, or abort; `*` `pthread_once` runs its routine at every call;
  `*` read-write locks do nothing; a thread blocked in a mutex or condition keeps its core.
* Collectives: `*` ring allgather never copies the own block; `*` message ids collide from round 500;
  allreduce needs commutative operations; `*` the scan builds its DAG before its buffers and is wrong from rank 3 on; SMP-aware
  allreduce starts a no-op; direct alltoall(v) uses zero offsets; `*` reduce with root other than 0
  loses half of the data for 2^w-1 ranks; `*` scatter leaves the result of one rank unset for two ranks or an even root; reduce_scatter,
  gatherv and scatterv abort; `*` a collective that needs no messages is never reported done;
  `SimTransport::allocateCq` calls a moved-from function for held messages.
* MPI: `*` test frees persistent requests, testall consumes a completed prefix, testany/testsome
  report null handles, waitsome/waitany misbehave on all-null arrays; `*` eager-1 messages are
  overtaken; `*` MPI_BXOR is never registered; communicator attribute flag inverted; freeing a
  cartesian communicator deletes the parent's group; `Cart_rank` does not wrap; tag collisions
  for large communicator ids.
* Point-to-point data: `*` the size check of a rendezvous message uses its 64-byte header; `*` the
  temporaries of Eager0 sends to other ranks and of rendezvous sends with noncontiguous types are
  never deleted; Eager0 notifies probes with a message it has deleted (eager0.cc:115-119); DIRECT_PUT
  passes null buffers and delivers no data; the receiver unpacks with the count of the sender.
* Threads: `*` MultiProgressQueue::incoming leaves the woken thread on its list until it runs; two
  items posted by a running thread (message to self, same queue for send and receive completion)
  wake the first waiter twice: the second sleeps beside an item, the first is resumed early from
  compute or finds no item; `*` a TimeoutEvent reads a thread that may have been joined and deleted.
* MPI collectives: the packed buffers of startMpiCollective hold one block (allocateTempPackBuffer with sendcnt or recvcnt), so gather, allgather and alltoall into types that are not contiguous write past them and unpack one block only, and scatter and alltoall from such types send what lies behind the packed block (mpi_allgather_vector_refuted, mpi_scatter_vector_refuted). MPI_IN_PLACE at the root of a scatter is taken as an address (mpi_scatter_in_place_refuted). MPI_IN_PLACE for alltoall delivers block j+p of rank j instead of block p whenever p < j and j+p < n (mpi_alltoall_in_place).
* MPI collectives with counts: allgatherv and alltoallv never pass the displacements to the engine (mpi_allgatherv_displs_refuted); DirectAlltoallvActor::initDag leaves send_offset and recv_offset at 0, so all blocks land on the same place (mpi_alltoallv_refuted); receive counts are multiplied by the size of a send element (mpi_allgatherv_types_refuted). Without buffers alltoallv, gatherv and scatterv replace the counts by their average, and gatherv swaps sendtype and sendcount in that case (mpi_api_vcollectives.cc:355-360).
* SMP collectives (`smp_optimize`): the allreduce starts only the empty last collective of its chain, so nothing is
  reduced (sim_transport.cc:667-671), and it compares a global with a communicator rank (646-648); the alltoall gives all
  ranks of a node the same result and overruns intraDst (795-810); the allgather orders blocks node by node, and never
  ends on a single node (a collective without actions is never reported as done) or on unevenly filled nodes (owners and
  other ranks disagree on smpBalanced()).
* Completion queues: SimTransport::allocateCq (sim_transport.cc:295-307) moves the callback into the table
  and then calls the moved-from callback for the held messages; with the usual standard libraries this
  throws std::bad_function_call. Messages that arrive before allocateDefaultCq on a slower rank are
  therefore never delivered (early_queue_refuted, held_never_handed). deallocateCq leaves the callback
  installed (stale_queue_refuted).
* Early messages: registerLib (operating_system.cc:596-606) turns kept requests into new events; a request
  that arrives before they are executed overtakes them (arrival_order_refuted).
* SumiServer: incomingRequest looks processes up with operator[], which leaves empty entries. A message to
  a process that ended keeps the server for ever (late_message_server_refuted) and puts the ended rank back
  into the list of neighbours (neighbours_refuted). After the server is gone such a message makes the
  destructor of the operating system abort (late_message_abort_refuted).
* Libraries: unregisterLib erases by name; with two libraries of the same name the newer one is lost
  (library_by_name_refuted). The libraries in the repository have different names.
* SCULPIN: `uint32_t(bytes_left)` in SculpinNIC::doSend (sculpin_nic.cc:144-145) makes the size of the next packet 0 when 2^32 bytes or a multiple are left, so a message of 2^32 bytes or more is cut for ever (`sculpin_cut_never_ends`).
* Stacks: a chunk whose size is one stack holds no stack (stack_alloc_chunk.cc:101 wants a whole step *less than* the size), and StackAlloc::alloc then uses `back()` of an empty vector (`stack_alloc_refuted`).
* Globals: globals_size sets allocSize_ without growing the buffer globalInits (app.cc:130-135), so a later library makes App::App read, and sstmac_init_global_space write, behind it (`globals_size_refuted`). Segments of threads other than the main thread are never removed from activeGlobalMaps_ (`globals_thread_end_refuted`, `globals_thread_declare_refuted`). Variables of a library loaded by a running process are not initialised in it (`globals_late_refuted`). Variables are aligned on four bytes only (`global_aligned_refuted`). Not modelled, seen on reading: App::App chooses the file for stderr by the parameter of stdout (app.cc:318-321) and opens the wrong name for cerr per rank (app.cc:347-349); all ranks of an application share one argv (app.cc:763-771), so a program that permutes its arguments disturbs the others; argv is copied into 256 bytes per argument without a check (app.cc:743-755).
* LogP: NIC::negligibleSize takes an int (nic.h:209), so a message of 2^31 to 2^32 - 1 bytes, or whose length modulo 2^32 is small, counts as negligible and is sent in no injection time in every network model (`logp_injection_refuted`).
* LogP: `now_ - time_to_recv` (logp_nic.cc:84) underflows early in a run when the network is faster than the NIC; the message is then delivered at once although others are being received (`logp_reception_refuted`).
* LogP: a short message overtakes a long one in a network slower than the NICs, and a negligible one always does (`logp_order_refuted`, `logp_order_small_refuted`).
* Memory: PiscesMemoryModel::accessRequest takes a channel that is never given back, so SNAPPR NICs with PISCES memory stop after nchannels packets (`pisces_memory_request_refuted`); a request that waits is started with an uninitialised size (pisces_memory_model.h:113-116, cc:149).
* Memory: `uint32_t(bytes_total - bytes_arrived)` (pisces_memory_model.cc:169) makes flows of packet_size + 2^32 bytes and more never end (`pisces_memory_large`); the default mtu of 100GB is cut to 1215752192 in the int packet_size_; `latency` is read and not used.
* Memory: `instr_time / bytes` is cut to whole ticks, so with memory faster than one byte per tick the instruction time is lost (`compute_time_refuted`). SnapprMemoryModel reads mtu_ from flow_mtu and does not use it.
* Persistent requests: complete_ is the only state of a request. Before the first MPI_Start it is
  false, so MPI_Wait blocks for ever; afterwards it stays true, so an inactive request is reported
  again with the old status and MPI_Waitany returns it before requests that are really over
  (mpi_api_wait.cc:81-103, 156-230). MPI_Test deletes it (mpi_api_test.cc:63-71).
* MPI_PROC_NULL: recv and sendrecv store the status through MPI_STATUS_IGNORE, the null pointer
  (mpi_api_send_recv.cc:112, 116, 324); start of a persistent receive leaves the status unset (:181-182).
* Polling: iprobe_delay_us_ and test_delay_us_ are ints, so a delay below 1 us is 0, and with 0 (the
  default of iprobe_delay) MPI_Iprobe handles no message and does not advance the clock
  (mpi_api.cc:141-145, mpi_api_probe.cc:91-94).
* Parameter files: a tab is not a blank (trim_str, basic_string_tokenizer.h:52): a key after a tab has the tab in its name, and a closing brace after a tab aborts.
* Parameter files: parameters printed for other ranks are read differently if a key has a blank after a dot ("node. id = 3"), starts with a hash or brace after a dot, or a value from a variable contains "set var " (sim_parameters.cc:408-419, 803-848).
* Parameter files: variables and includes that lead back to themselves never end; one closing brace too many uses the back of an empty list; "unset include_os" is read as an include line (sim_parameters.cc:803-848, 981-986).
* Threads: pthread_exit throws past cleanup, so the thread never reaches DONE and whoever joins it waits for ever (thread.cc:149-151). App::cleanup cancels the remaining threads, but initThread and runRoutine overwrite CANCELED, so a thread that had not started starts all the same and later uses the deleted App. A thread that is detached after its end is never deleted. running_threads_ is filed by task number but searched by thread number, so pthread_setaffinity_np finds no thread or a wrong one, and deleted detached threads are not taken out (operating_system.cc:542, 761, 826).
* Scatter router: when two groups have no link the port set of a destination is empty and nextPort dereferences the end of the set; the abort for that is under SSTMAC_SANITY_CHECK. A packet that takes the first global port (number a) is not counted as a group hop (`port > a`, dragonfly_routing.cc:715), which nothing uses. Dragonfly::randomIntermediate, which nothing calls, computes router and group with g instead of a (dragonfly.cc:333-336), and the all-to-all version repeats the same attempt (dragonfly.cc:570-573).
* Random numbers: SHR3 shifts left by 17, right by 13 and left by 5, for which the period is not 2^32-1 as documented (rng.h:207): the seed 0xaea21b8f gives the same number for ever, and so does 0.
* Random numbers: SWB reads one of its places after moving on (rng.cc:549-551), so the second lag is 236, not 237, and its borrow compares the new x(n-222) with the old y; LFIB4 uses the offsets of a table read the other way round, so the lags are 256, 198, 137 and 77 in place of the documented 256, 179, 119 and 55 (rng.h:405 and 423-430).
* Random numbers: MWC (rng.h:164-170) stands still when it is seeded with 2422800383 and 1179647999, or with zeros; nothing checks seeds.
* Dragonfly+: `*` nodes of one leaf are reported two hops apart, upper switches of different groups
  one hop apart; `*` wirings with missing links pass the checks and lose packets; one group divides
  by zero (dragonfly_plus.cc:111); isGlobalPort tests `port >= 2*a` although global ports start at
  `a` (dragonfly_plus.h:117, not called).
* Datatypes: `*` contiguous, vector, hindexed and struct layouts as in C37, C85, C86.
* Serializer: null buffers, containers appended to on unpacking, lost members of packets and
  messages.
* Launch: `*` round-robin mapping drops ranks; file mappers ignore the allocation; the cartesian
  allocator ignores the requested count.
* Stats: `*` FTQ writes past its table at an epoch boundary; `*` histogram at its maximum.

## Print Assumptions

`Print Assumptions` was run on each of the 555 theorems named in `MANIFEST.json`; it answered `Closed under the global context` for every one of them: no axiom, of the standard library or otherwise, is used.  The theorems, by file:

* `AaProp`: alltoall_transposes, alltoall_terminates, alltoall_temp_fits, alltoall_no_overrun
* `AbProp`: simple_arbitrator_exclusive, cut_through_exclusive_partial, null_arbitrator_refuted, cut_through_small_refuted, cut_through_bandwidth_refuted, cut_through_early_refuted
* `AgProp`: allgather_delivers_all_blocks, allgather_terminates, allgather_in_bounds, allgather_no_overrun, barrier_separates, ring_allgather_refuted, ring_allgather_in_place_partial, ring_allgather_copied_in_partial, ring_allgather_terminates
* `ArProp`: folding_bijective, allreduce_reduces, allreduce_terminates
* `AvProp`: allgatherv_delivers_all_blocks, allgatherv_terminates, allgatherv_sizes_agree
* `BcProp`: bcast_delivers, bcast_early
* `CaProp`: cascade_routing_refuted, cascade_delivery_refuted, cascade_gateway_partial, cascade_in_group_partial, cascade_symmetric_partial, cascade_symmetric_refuted, cascade_ports_consistent, cascade_ports_distinct_refuted, cascade_groups_joined
* `CbProp`: C11_space_disjoint, C11_aligned, C11_nothing_lost, C11_reset, C74_window_arrives, C74_send_fits
* `CgProp`: C50_grid_has_n_cells, C50_factor_array_bound, C72_grid_minimal_surface, C73_auto_allocation_refuted
* `CmProp`: create_id_agreed_fresh, create_group_id_agreed_fresh, split_id_agreed_fresh, comm_id_unambiguous, split_order, split_rank_is_position, cart_rank_of_coords, cart_coords_of_rank, cart_shift_partial, cart_shift_one_turn_partial, cart_shift_refuted, collective_tags_equal, collective_tags_unique_partial, collective_tags_wrap_refuted, create_group_tags_refuted, cart_convention_partial, cart_row_major_refuted, cart_rank_wrap_refuted, groups_alive_partial, group_free_dangling_refuted, cart_free_dangling_refuted, split_dup_dangling_refuted, group_rank_inverse, translate_same_process, group_incl_spec, range_incl_spec
* `CoProp`: rank_translation_partial, members_injective, shifted_my_rank_ok, rank_translation_refuted, my_rank_uninitialised_refuted, smp_groups, smp_agree, smp_balanced_partial, smp_balanced_refuted, smp_create_stuck_refuted
* `CpProp`: cpuset_cores_exclusive, cpuset_waits_only_for_cores, cpuset_requests_served, cpuset_exclusive_above_32_refuted, simple_capacity, simple_exclusive_refuted, simple_work_conserving_refuted, simple_work_conserving_partial
* `DagProp`: dag_starts_once, dag_completes_once, dag_done_last, dag_runs_to_completion, dag_completion_refuted
* `DfProp`: C21_circulant_symmetric, C21_alltoall_symmetric, C21_single_symmetric_iff, C21_single_ports_unique_partial, C21_single_odd_refuted, C22_minimal_delivers, C22_minimal_deadlock_free, C22_vc_counts_global_hops, C64_distance_refuted, C64_distance_upper_bound_partial, C65_valiant_ugal_deliver, C65_valiant_ugal_deadlock_free, C66_rotate_delivers, C66_rotate_alltoall, C66_rotate_deadlock_free, C67_par_vc_overflow_refuted, C67_par_delivers_partial, C67_par_alltoall_partial
* `DmProp`: init_ascending, dense_is_count, sparse_of_dense, dense_of_sparse, dense_monotone, dense_onto, failed_rejected_partial, failed_rejected_refuted
* `DpProp`: C113_coordinates, C113_cables, C113_nodes, C114_constructor, C114_minimal_delivers, C114_minimal_deadlock_free, C114_alltoall_wired, C114_missing_links_refuted, C115_par_delivers, C115_par_deadlock_free, C115_detours_exist, C116_distance_partial, C116_distance_refuted
* `DtProp`: transfer_same_offset, transfer_exact_partial, contiguous_refuted, vector_block_refuted, indexed_refuted, struct_padding_refuted, vector_count_refuted, recv_count_refuted, type_size_correct, type_extent_partial, type_extent_refuted, pack_in_bounds_partial, pack_overrun_refuted
* `EnProp`: early_messages_kept, unstarted_messages_held, completion_reported_once_partial, nothing_else_reported, completion_lost_refuted
* `EvProp`: C01_serial_order, C01_order_determines_history, C01_insertion_order_irrelevant, C02_no_loss_no_duplication, C02_until, C02_event_at_stop_time_refuted, C03_time_monotone, C04_never_into_the_past, C05_parallel_equals_serial, C57_setup_send_lost_refuted
* `FtProp`: C19_fat_tree_paired_iff, C19_agg_core_paired_partial, C19_ports_unique_partial, C19_input_port_collision_refuted, C20_fat_tree_delivers, C20_fat_tree_deadlock_free, C62_leaf_hops_is_graph_distance, C62_minimal_distance_refuted, C62_distance_zero_partial
* `GaProp`: gather_collects, gather_early
* `GvProp`: global_slots_disjoint, global_aligned_partial, global_aligned_refuted, global_init_order, global_declared_order, globals_private_partial, globals_separate, globals_initial, globals_declare_idle, globals_size_refuted, globals_thread_end_refuted, globals_thread_declare_refuted, globals_late_refuted
* `HcProp`: C18_hypercube_wiring, C18_hypercube_minimal_delivers, C18_hypercube_distance_is_graph_distance, C18_hypercube_minimal_deadlock_free, C60_fully_connected_wiring, C60_fully_connected_delivers, C60_star_delivers, C61_par_delivers, C61_par_deadlock_free
* `LnProp`: C44_sharing_refuted, C44_leak_refuted, C44_no_sharing_partial, C44_all_freed_partial, C45_round_robin_refuted, C45_file_mapper_refuted, C45_block_places_all, C45_random_places_all, C45_round_robin_places_all_partial, C45_refusal, C49_every_rank_started_once, C49_terminates, C49_array_bound, C68_node_to_rank_exact, C69_exclusive_fifo, C70_cart_refuted, C70_allocation_exact, C70_first_available_exact, C71_incast_refuted, C71_incast_mirrors_partial
* `LocProp`: maxloc_any_order, minloc_any_order, loc_order_independent, int_ops_correct_partial, int_ops_order_independent, int_ops_complete_refuted
* `LpProp`: logp_injection_partial, logp_injection_refuted, logp_delivered_once, logp_reception_partial, logp_reception_refuted, logp_order_partial, logp_order_refuted, logp_order_small_refuted
* `McProp`: mpi_bcast_partial, bcast_contiguous_refuted, mpi_allgather_partial, mpi_gather_partial, mpi_scatter_partial, mpi_alltoall_partial, mpi_alltoall_in_place, mpi_allgather_vector_refuted, mpi_alltoall_in_place_refuted, mpi_scatter_vector_refuted, mpi_scatter_in_place_refuted
* `MidProp`: message_id_decodes, message_id_distinct, message_id_parity, message_id_distinct_refuted
* `MmProp`: logp_memory_serial, compute_time_partial, compute_time_refuted, pisces_memory_partial, pisces_memory_large, pisces_memory_large_refuted, pisces_memory_request_refuted, snappr_memory_flows, snappr_memory_channels
* `MqProp`: messages_in_order, messages_all_handled, sent_to_program, matching_sound, earliest_receive, no_missed_match, non_overtaking_partial, earlier_are_handled, overtaking_refuted, probe_served_partial, probe_missed_refuted, probe_stale_refuted
* `MuProp`: trylock_excludes_refuted, signal_excludes_refuted, rwlock_excludes_refuted, mutex_excludes_partial, mutex_fifo_partial, mutex_resume_partial, once_once_refuted, once_runs_partial, signal_wakes_waiter_refuted, signal_without_waiter_refuted
* `NdProp`: early_messages_once, messages_reach_their_queue, proper_never_fails, arrival_order_partial, arrival_order_refuted, early_queue_refuted, held_never_handed, reserved_queue_refuted, stale_queue_refuted, queue_numbers_distinct, clean_end_partial, late_message_server_refuted, late_message_abort_refuted, neighbours_partial, neighbours_refuted, requests_once, library_calls_right, library_by_name_partial, library_by_name_refuted
* `NodeProp`: C63_torus_nodes, C63_hypercube_nodes, C63_fully_connected_nodes, C63_star_nodes, C63_dragonfly_nodes, C63_fat_tree_nodes
* `NpProp`: packets_make_up_messages_partial, completes_on_last_packet, each_message_completes_once, empty_message_lost_refuted, large_messages_use_network_partial, large_messages_use_network_refuted
* `PaProp`: params_roundtrip, ranks_agree_partial, ranks_differ_refuted, ranks_lose_value_refuted, ranks_fail_refuted, file_meaning, layout_free, read_in_pieces, dotted_is_block, assignment_sets, last_assignment_wins, command_line_wins, combine_keeps, read_stored, reading_ends_partial, variable_loop_refuted, include_loop_refuted, extra_brace_refuted, unset_include_refuted
* `PcProp`: credits_conserved, receiver_never_overrun, queued_means_busy_partial, queued_means_busy_refuted, packets_neither_lost_nor_copied, at_rest_all_delivered, comes_to_rest
* `PdProp`: pt2pt_data, pt2pt_untouched, pt2pt_contiguous, pt2pt_elements, pt2pt_once, eager_send_done, pt2pt_complete, pt2pt_settles, pt2pt_no_fault, eager_truncation_partial, rendezvous_truncation_refuted, pt2pt_released_partial, pt2pt_released_refuted
* `PlProp`: C56_alloc, C56_disjoint
* `PoProp`: test_poll_partial, iprobe_poll_partial, poll_not_early, poll_blind_refuted
* `PqProp`: C117_no_lost_wakeup_partial, C117_arrival_wakes_partial, C117_wake_pending_partial, C117_one_thread, C117_two_posts_refuted, C118_items_once_in_order_partial, C118_find_takes_oldest_partial, C118_empty_only_when_allowed_partial, C118_two_posts_refuted, C119_right_reason_partial, C119_join_after_end_partial, C119_one_active_partial, C119_no_faults_partial, C119_stale_timeout_refuted
* `PsProp`: persistent_partial, persistent_cycles, inactive_wait_refuted, inactive_again_refuted, inactive_any_refuted, persistent_test_refuted, proc_null_no_transfer, proc_null_partial, proc_null_ignore_refuted, proc_null_status_refuted
* `PtProp`: C12_block_valid, C12_block_contiguous, C12_block_load_partial, C12_block_balanced_refuted, C12_occupied_refuted, C12_occupied_partial
* `ReProp`: reduce_reduces_partial, reduce_terminates, reduce_refuted
* `RnProp`: reseed_restarts, cong_full_period, mwc_full_period, mwc_other_seeds_refuted, shr3_permutes_partial, shr3_period_refuted, swb_recurrence_partial, swb_documented_refuted, lfib4_recurrence_partial, lfib4_documented_refuted
* `ScProp`: scatter_delivers_partial, scatter_early_partial, scatter_refuted
* `SerProp`: C09_round_trip, C10_size_exact, C10_never_overruns, C10_size_exact_refuted, C75_null_pointer_refuted, C75_null_in_vector_partial, C76_packet_state_refuted, C76_packet_state_partial
* `SgProp`: scatter_goes_on, scatter_arrives, alltoall_linked, scatter_unlinked_refuted
* `SjProp`: nic_fifo_accounted, nic_fifo_order, nic_fifo_returns, nic_fifo_drains, nic_rr_accounted_partial, nic_rr_returns_partial, nic_rr_drains_partial, nic_rr_fair_partial, nic_rr_full_refuted, nic_lane_partial, nic_scatter, nic_get_lane_refuted
* `SkProp`: stack_aligned, stack_own_data, stacks_disjoint, stack_usable, stack_guarded, stack_alloc_partial, stack_alloc_refuted, stack_default
* `SlProp`: sculpin_port_never_aborts, sculpin_port_fifo, sculpin_port_priority, sculpin_port_drains, sculpin_port_uncongested, sculpin_link_times, sculpin_link_disjoint, sculpin_port_order, sculpin_tail_causal, sculpin_path_order, sculpin_cut_partial, sculpin_cut_refuted, sculpin_cut_never_ends, sculpin_inject_times, sculpin_eject_times, sculpin_flow_order
* `SmProp`: smp_allgather_result, smp_allgather_partial, smp_allgather_only_consecutive, smp_allgather_order_refuted, smp_allgather_one_node_refuted, smp_allgather_uneven_refuted, smp_alltoall_refuted, smp_alltoall_shared, smp_alltoall_overrun_refuted, smp_allreduce_idle, smp_allreduce_refuted, smp_allreduce_abort_refuted
* `SnProp`: scan_partial, scan_with_copies, scan_refuted
* `SpProp`: snappr_port_keeps_packets_and_credits, snappr_port_never_idles, snappr_port_drains, snappr_wrr_lane_order, snappr_fifo_lane_order_partial, snappr_fifo_lane_order_refuted, snappr_port_time_accounted, snappr_stall_time_partial, snappr_stall_time_refuted
* `SpQos`: wrr_priority, wrr_cap_partial, wrr_cap_refuted, snappr_port_calls_in_order, wrr_min_partial, wrr_min_refuted, wrr_min_short_refuted
* `StProp`: C47_cells_partial, C47_conserved_partial, C47_rows_partial, C47_boundary_refuted, C48_bins_partial, C48_max_refuted, C48_integer_refuted, C48_integer_partial, C77_mean_refuted, C77_mean_partial
* `ThProp`: thread_life_partial, deleted_only_ended, join_returns_at_end, no_joiner_forgotten, no_thread_left, exit_join_refuted, canceled_starts_refuted, deleted_process_used_refuted, late_detach_refuted, affinity_partial, affinity_one, affinity_unknown_refuted, affinity_other_refuted, affinity_deleted_refuted
* `TimeProp`: C06_add_moves_forward, C06_add_assoc, C06_difference, C06_add_timestamps, C06_add_sub_partial, C06_sub_exact_partial, C06_roundtrip_refuted, C06_borrow_refuted, C06_carry_refuted, C07_order_partial, C07_le_same_epoch_partial, C07_le_refuted, C08_divide_up_partial, C08_truncation_refuted, C58_units_exact_partial, C58_units_refuted
* `TorusProp`: C13_torus_coords_bijection, C14_torus_cables_paired, C14_torus_ports_used_once, C14_size_one_dimension_refuted, C15_torus_minimal_delivers, C15_torus_distance_is_graph_distance, C15_walk_follows_cables, C16_torus_minimal_deadlock_free, C16_torus_positive_deadlock_free, C17_torus_valiant_delivers, C17_torus_ugal_delivers, C17_torus_positive_delivers, C59_torus_valiant_cyclic_wait_refuted, C59_torus_valiant_first_phase_partial
* `VcProp`: mpi_allgatherv_partial, mpi_vcollective_layout_rejected, mpi_allgatherv_displs_refuted, mpi_allgatherv_types_refuted, alltoallv_terminates, alltoallv_traffic, alltoallv_result, mpi_alltoallv_partial, mpi_alltoallv_refuted
* `WtProp`: wait_once, wait_null, waitall_all, waitany_one, waitsome_exact_partial, test_once_partial, testall_flag_partial, testany_one_partial, testsome_exact_partial, test_persistent_refuted, testall_consumes_refuted, testany_null_refuted, testsome_null_refuted, waitsome_status_refuted, waitsome_null_stuck, waitsome_null_refuted
