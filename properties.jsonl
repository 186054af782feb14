{"id": "C01", "title": "Joint displacement limits hold after any history", "statement": "For a revolute, prismatic, cylindrical or universal joint whose lower limit does not exceed its upper limit, every displacement component returned by rkJointGetDis lies between the limits returned by rkJointGetMin/rkJointGetMax after any displacement-setting call, and stays there under any later sequence of joint API calls that does not change the limits.", "quantifier": "all joint types with limits, all limit values (including unset/infinite), all sequences of joint API calls with all arguments", "why_tests_cant": "A test fixes a few limits and a few inputs; the claim is about every call history and every value, including values far outside the range that are wrapped and then saturated.", "anchors": ["src/rk_joint_revol.c:_rkJointRevolLimDis,_rkJointRevolSetDis", "src/rk_joint_prism.c:_rkJointPrismLimDis", "src/rk_joint_cylin.c:_rkJointCylinLimDis", "src/rk_joint_hooke.c:_rkJointHookeLimDis1"]}
{"id": "C02", "title": "Joint transformation depends only on the displacement that can be read back", "statement": "At any time after a joint has been assigned, the frame transformation performed by rkJointXform is exactly the documented transformation for the displacement currently returned by rkJointGetDis; no call sequence can make the internally cached sine/cosine/attitude values disagree with the displacement.", "quantifier": "all joint types, all API call sequences starting from rkJointAssign, all original frames", "why_tests_cant": "Stale-cache errors need a particular order of calls; tests exercise only the SetDis-then-Xform order.", "anchors": ["src/rk_joint_revol.c:_rkJointRevolSetDis,_rkJointRevolXform", "src/rk_joint_hooke.c:_rkJointHookeSetDis1", "src/rk_joint_spher.c:_rkJointSpherSetDis", "src/rk_joint_float.c:_rkJointFloatSetDis", "src/rk_joint.c:rkJointAssign,rkJointNeutral"]}
{"id": "C03", "title": "Joint transformation keeps frames rigid", "statement": "If the original frame of a link has a right-handed orthonormal attitude then the frame produced by rkJointXform has one too, for every joint type and displacement.", "quantifier": "all joint types, all displacements, all rigid original frames", "why_tests_cant": "Orthonormality for all angles is an algebraic identity; a test can only sample angles within a tolerance.", "anchors": ["src/rk_joint_*.c:_rkJoint*Xform"]}
{"id": "C04", "title": "Joint velocity contribution is the time derivative of the joint transformation", "statement": "When the displacement of a joint moves along any differentiable trajectory with rate equal to the joint velocity, the linear and angular velocity that rkJointIncVel adds are the velocity of the transformed frame's origin and the angular velocity of its attitude, expressed in the transformed frame.", "quantifier": "all joint types, all differentiable trajectories, all instants, all rigid original frames", "why_tests_cant": "A derivative is a limit; finite differences in a test only approximate it at sampled points.", "anchors": ["src/rk_joint_*.c:_rkJoint*IncVel,_rkJoint*Xform"]}
{"id": "C05", "title": "Continuous update yields velocity consistent with the displacement actually taken", "statement": "After rkJointSetDisCNT with a non-zero time step, the reported joint velocity times the time step equals the change of the displacement returned by rkJointGetDis, and the reported acceleration times the time step equals the change of velocity.", "quantifier": "all single and double degree-of-freedom joint types, all states, all requested values, all non-zero time steps", "why_tests_cant": "The failing inputs are those that leave the permitted range or wrap the phase; sampled in-range values never reveal them.", "anchors": ["src/rk_joint_revol.c:_rkJointRevolSetDisCNT", "src/rk_joint_prism.c:_rkJointPrismSetDisCNT", "src/rk_joint_cylin.c:_rkJointCylinSetDisCNT", "src/rk_joint_hooke.c:_rkJointHookeSetDisCNT"]}
{"id": "C06", "title": "Friction pivot set/get round trip", "statement": "rkJointSetFrictionPivot stores the given pivot in the joint without modifying the caller's object, and a later rkJointGetFrictionPivot returns the last pivot stored without modifying the joint.", "quantifier": "all joint types with friction, all pivots, all interleavings of other joint calls", "why_tests_cant": "No test calls these functions for any joint type other than through the forward dynamics simulator; the property is about every interleaving.", "anchors": ["src/rk_joint_revol.c:145-151", "src/rk_joint_prism.c:138-144", "src/rk_joint_cylin.c:160-168", "src/rk_joint_hooke.c:187-195"]}
{"id": "C07", "title": "Copying joint state transfers all observable state", "statement": "After rkJointCopyState(src,dst) between joints of the same type and the same limits, dst returns the same displacement, velocity, acceleration and torque as src and performs the same frame transformation, and src is unchanged.", "quantifier": "all joint types, all source states reachable by API calls, all destination states", "why_tests_cant": "Must hold for every reachable source state including wrapped and saturated ones.", "anchors": ["src/rk_joint.c:rkJointCopyState"]}
{"id": "C08", "title": "A cloned joint behaves like the original", "statement": "A joint produced by rkJointClone has the same type, limits, friction parameters, state and motor as the original, so every subsequent call sequence gives the same results on both.", "quantifier": "all joint types, all reachable original states, all subsequent call sequences", "why_tests_cant": "The difference only shows when a later displacement exceeds the original's limits or friction is evaluated; no test clones and then drives the clone.", "anchors": ["src/rk_joint.c:rkJointClone"]}
{"id": "C09", "title": "Passive joint friction never injects energy", "statement": "With non-negative viscosity and Coulomb coefficients and zero stiffness, the kinetic friction returned by rkJointGetKFriction does non-positive work against the joint velocity; with stiffness the power equals minus the rate of change of the elastic energy minus a non-negative dissipation.", "quantifier": "all joint types with friction, all coefficients >= 0, all displacements and velocities", "why_tests_cant": "Sign property over all real values including zero velocity.", "anchors": ["include/roki/rk_joint.h:_rkJointRestTrq", "src/rk_joint_*.c:_rkJoint*GetKFriction"]}
{"id": "C10", "title": "Joint torque is dual to joint velocity", "statement": "For every joint type, state and wrench, the power of the joint torques computed by rkJointCalcTrq against any joint velocity equals the power of the wrench against the relative twist that this velocity contributes through rkJointIncVel.", "quantifier": "all joint types, all attitudes, all wrenches, all velocities", "why_tests_cant": "Bilinear identity over all values; tests only compare numbers at samples.", "anchors": ["src/rk_joint_*.c:_rkJoint*CalcTrq,_rkJoint*IncVel"]}
{"id": "C11", "title": "Joint axis vectors agree with the joint velocity transformation", "statement": "The sum over components of axis vector times joint velocity, using rkJointAngAxis/rkJointLinAxis in the link frame, equals the world-frame angular/linear velocity that rkJointIncVel adds to the link.", "quantifier": "all joint types, all states, all link attitudes, all velocities", "why_tests_cant": "Two independently written tables per joint type must agree for all states.", "anchors": ["src/rk_joint_*.c:_rk_joint_*_axis_ang,_rk_joint_*_axis_lin", "src/rk_joint.c:_rkJointAxisZ,_rkJointAxisNull"]}
{"id": "C12", "title": "Joint type lookup is exact", "statement": "rkJointQueryAssign succeeds exactly for the eight documented type names, giving a joint that reports that name, the documented number of components and the neutral displacement; for any other name it returns the null pointer and leaves the joint as it was.", "quantifier": "all strings", "why_tests_cant": "The space of strings is infinite; tests use a handful of valid names.", "anchors": ["src/rk_joint.c:rkJointQueryAssign,rkJointAssign", "include/roki/rk_joint.h:RK_JOINT_COM_ARRAY"]}
{"id": "C13", "title": "Breakable joints break individually", "statement": "A breakable joint is rigid until the wrench it transmits exceeds its own force or torque threshold and free afterwards, and no event at one joint changes the behaviour of another joint.", "quantifier": "all sets of breakable joints, all thresholds, all sequences of wrench updates", "why_tests_cant": "Interference needs two joint instances and a particular history.", "anchors": ["src/rk_joint_brfloat.c:_rkJointBrFloatFixedUpdateWrench", "src/rk_joint_brfloat.c:rk_joint_brfloat"]}
{"id": "C14", "title": "Motor input saturation holds for every history", "statement": "After any sequence of motor API calls with fixed limits min<=max, the stored input of a DC or torque motor lies within its limits after each rkMotorSetInput, equals the requested value whenever that is within limits, and the resulting input torque is bounded accordingly.", "quantifier": "all motors, all limits, all input sequences", "why_tests_cant": "Unbounded set of inputs and histories.", "anchors": ["src/rk_motor_dc.c:_rkMotorDCSetInput,_rkMotorDCInputTrq", "src/rk_motor_trq.c:_rkMotorTrqSetInput"]}
{"id": "C15", "title": "DC motor torque balance and passivity", "statement": "The driving torque of a DC motor equals input torque minus resistance minus reflected inertia times acceleration; the resistance always opposes the velocity for non-negative admittance; with zero input the motor's power never exceeds minus the rate of change of rotor kinetic energy.", "quantifier": "all motor parameters with non-negative admittance and inertia, all velocities, accelerations and inputs", "why_tests_cant": "Sign and balance properties over all reals.", "anchors": ["src/rk_motor_dc.c:_rkMotorDCDrivingTrq,_rkMotorDCRegistance,_rkMotorDCInertia"]}
{"id": "C16", "title": "Wrench list is a LIFO stack with an order-independent net wrench", "statement": "rkWrenchListPop returns wrenches in reverse order of rkWrenchListPush and the null pointer exactly when empty; rkWrenchListNet returns the sum of the wrenches shifted to the origin, independent of the order of pushes and unchanged by a push followed by a pop.", "quantifier": "all push/pop histories, all wrenches and points", "why_tests_cant": "History-dependent list behaviour for unbounded lengths.", "anchors": ["src/rk_force.c:rkWrenchListPop,rkWrenchListNet,rkWrenchShift", "include/roki/rk_force.h:rkWrenchListPush"]}
{"id": "C17", "title": "Net wrench preserves power on rigid motions", "statement": "For every list of wrenches and every rigid-body twist, the power of the net wrench at the origin equals the sum of the powers of the individual wrenches at their points of action.", "quantifier": "all wrench lists, all twists", "why_tests_cant": "Identity over unbounded lists and all values.", "anchors": ["src/rk_force.c:rkWrenchListNet"]}
{"id": "C18", "title": "Combining mass properties conserves mass, first and second moments", "statement": "When the total mass is non-zero, rkMPCombine conserves mass, mass-weighted COM and the inertia tensor about the origin (as computed by rkMPOrgInertia) of the pair.", "quantifier": "all pairs of mass properties with non-zero total mass", "why_tests_cant": "Algebraic identity for all reals.", "anchors": ["src/rk_body.c:rkMPCombine,_rkMPShiftInertia,rkMPOrgInertia"]}
{"id": "C19", "title": "Mass property combination is commutative and associative", "statement": "The result of combining any number of mass property sets does not depend on order or grouping, when all partial sums of mass are non-zero.", "quantifier": "all mass property triples with non-zero partial masses; by induction any list with positive masses", "why_tests_cant": "Needs every order of every list.", "anchors": ["src/rk_body.c:rkMPCombine"]}
{"id": "C20", "title": "Mass property frame transformation round trip and compatibility", "statement": "rkMPXform and rkMPXformInv with the same rigid frame are inverse to each other, compose along cascaded frames, and commute with rkMPCombine; rkBodyCombine therefore yields the same physical body regardless of the frame in which it is expressed.", "quantifier": "all mass properties, all rigid frames", "why_tests_cant": "Identity over all reals and frames.", "anchors": ["src/rk_body.c:rkMPXform,rkMPXformInv,rkBodyCombine,rkBodyCombineDRC"]}
{"id": "C21", "title": "Net wrench of a body is the rate of its momentum and its power is the rate of kinetic energy", "statement": "For a body with symmetric inertia the wrench from rkBodyNetWrench, taken with the COM velocity and acceleration maintained by rkBodyUpdateCOMRate, has power against the body's motion equal to the time derivative of rkBodyKE along the motion.", "quantifier": "all mass properties with symmetric inertia, all velocities and accelerations", "why_tests_cant": "Differential identity over all states.", "anchors": ["src/rk_body.c:rkBodyNetWrench,rkBodyUpdateCOMVel,rkBodyUpdateCOMAcc,rkBodyKE"]}
{"id": "C22", "title": "Angular momentum reference shift and non-negative kinetic energy", "statement": "rkBodyAM about two points differs by the cross product of their offset with linear momentum; rkBodyKE is non-negative whenever mass is non-negative and the inertia is positive semidefinite, and is zero only for a body whose momentum is zero in the strictly positive case.", "quantifier": "all bodies, all points, all velocities", "why_tests_cant": "Universal identities and inequalities.", "anchors": ["src/rk_body.c:rkBodyAM,rkBodyKE"]}
{"id": "C23", "title": "Building a kinematic tree with rkLinkAddChild keeps it well formed", "statement": "Starting from initialised links, any sequence of rkLinkAddChild calls that attaches each link at most once and never below itself yields links whose parent, child and sibling references describe one forest: each attached link appears exactly once in the child list of exactly its parent, in attachment order.", "quantifier": "all numbers of links, all valid attachment sequences", "why_tests_cant": "Unbounded histories of pointer updates.", "anchors": ["src/rk_link.c:rkLinkInit,rkLinkAddChild,rkLinkAddSibl"]}
{"id": "C24", "title": "Recursive updates visit every link of the tree exactly once", "statement": "On a tree built by rkLinkAddChild, each recursive chain update (frame, velocity, acceleration, wrench, ABI passes) starting at the root terminates, dereferences no null pointer, processes every link exactly once, and every link after its parent (downward passes) or after all its children (upward passes).", "quantifier": "all trees", "why_tests_cant": "All tree shapes; termination and memory safety are not testable in general.", "anchors": ["src/rk_link.c:rkLinkUpdateFrame,rkLinkUpdateVel,rkLinkUpdateAcc,rkLinkUpdateWrench", "src/rk_abi.c:rkChainABIUpdateBackward,rkChainABIUpdateForward"]}
{"id": "C25", "title": "Adding a sibling gives the new link the same parent", "statement": "After rkLinkAddSibl(l,bl), the link bl is a further child of l's parent, so that recursive updates from the root handle it like any other child.", "quantifier": "all trees, all links l with a parent", "why_tests_cant": "The failure is a null-pointer dereference in a later traversal of particular tree shapes.", "anchors": ["src/rk_link.c:rkLinkAddSibl,rkLinkUpdateFrame"]}
{"id": "C26", "title": "A cloned chain has the same structure and shares no links", "statement": "rkChainClone yields a chain whose links have the same parent/child/sibling relations by index, the same offsets, frames, mass properties and state, with every reference pointing into the clone.", "quantifier": "all chains", "why_tests_cant": "All tree shapes and address layouts.", "anchors": ["src/rk_chain.c:rkChainClone", "src/rk_link.c:rkLinkClone"]}
{"id": "C27", "title": "Joint offsets partition the joint vector", "statement": "After rkChainSetOffset the index ranges [offset, offset+size) of the links with movable joints are pairwise disjoint, in link order, and exactly cover [0, rkChainJointSize); links without degree of freedom have offset -1.", "quantifier": "all chains with any joint types", "why_tests_cant": "All sequences of joint sizes.", "anchors": ["src/rk_chain.c:rkChainSetOffset,rkChainJointSize", "include/roki/rk_chain.h"]}
{"id": "C28", "title": "Joint vector set/get round trip", "statement": "Writing a joint displacement vector of the chain's size and reading it back with the All variants returns, component by component, the saturated input; velocities and accelerations round-trip exactly; no access leaves the vector; index variants touch exactly the indexed joints.", "quantifier": "all chains, all vectors, all duplicate-free indices", "why_tests_cant": "All chain structures and index sets, including out-of-bounds access.", "anchors": ["src/rk_chain.c:rkChainSetJointDisAll,rkChainGetJointDisAll,rkChainSetJointDis,rkChainGetJointDis,rkChainSetJointRateAll,rkChainGetJointVelAll"]}
{"id": "C29", "title": "Default joint index lists exactly the movable joints", "statement": "rkChainCreateDefaultJointIndex returns in increasing order precisely the link indices whose joint has at least one component, and with this index the indexed accessors coincide with the All variants.", "quantifier": "all chains", "why_tests_cant": "All sequences of joint sizes.", "anchors": ["src/rk_chain.c:rkChainCreateDefaultJointIndex,rkChainJointIndexSize"]}
{"id": "C30", "title": "Forward kinematics is the product of joint transformations along the path", "statement": "After rkChainUpdateFK the world frame of each link is the composition, from the root, of the joint-transformed original frames of its ancestors and itself, independent of the previous world and adjacent frames.", "quantifier": "all trees, all joint displacements, all previous states", "why_tests_cant": "All tree shapes and values.", "anchors": ["src/rk_link.c:rkLinkUpdateFrame", "src/rk_chain.c:rkChainUpdateFK"]}
{"id": "C31", "title": "World frames stay rigid", "statement": "If all original frames are rigid then after rkChainUpdateFK every world and adjacent frame is rigid.", "quantifier": "all trees, all displacements", "why_tests_cant": "All tree shapes and values.", "anchors": ["src/rk_link.c:rkLinkUpdateFrame"]}
{"id": "C32", "title": "Link Jacobians map joint velocities to the velocities the library reports", "statement": "For every link, point and joint velocity vector, the world angular and linear Jacobian times the joint velocities equals the world-frame angular velocity of the link and velocity of the point computed by the rate update.", "quantifier": "all trees, all joint types, all displacements and velocities, all links and points", "why_tests_cant": "A random-chain test with tolerance samples a measure-zero set.", "anchors": ["src/rk_jacobi.c:rkChainLinkWldAngJacobi,rkChainLinkWldLinJacobi", "src/rk_link.c:rkLinkUpdateVel"]}
{"id": "C33", "title": "Link-to-link Jacobians give relative velocities", "statement": "rkChainLinkToLinkAngJacobi / rkChainLinkToLinkLinJacobi times the joint velocities equal the relative angular velocity of the two links and the velocity of the given point of the second link minus that of the point of the first link at the same place, for any pair of links.", "quantifier": "all trees, all pairs of links including ancestor/descendant pairs", "why_tests_cant": "All pair positions in all trees.", "anchors": ["src/rk_jacobi.c:rkChainLinkToLinkAngJacobi,rkChainLinkToLinkLinJacobi"]}
{"id": "C34", "title": "COM Jacobian maps joint velocities to COM velocity", "statement": "The COM Jacobian times joint velocities equals the COM velocity from rkChainCalcCOMVel, when the chain mass is the sum of link masses and non-zero.", "quantifier": "all trees, all mass distributions, all states", "why_tests_cant": "All trees and values.", "anchors": ["src/rk_jacobi.c:rkChainCOMJacobi", "src/rk_chain.c:rkChainCalcCOMVel,rkChainCalcMass"]}
{"id": "C35", "title": "Angular momentum Jacobian maps joint velocities to angular momentum", "statement": "The angular momentum matrix about a point times joint velocities equals rkChainAM about that point.", "quantifier": "all trees, all mass properties, all states and points", "why_tests_cant": "All trees and values.", "anchors": ["src/rk_jacobi.c:rkChainAMJacobi,rkChainLinkAMJacobi", "src/rk_chain.c:rkChainAM"]}
{"id": "C36", "title": "Rate update gives the true time derivative of the posture", "statement": "For any chain whose joints move along differentiable trajectories, the velocities computed by the rate update are the time derivatives of the world positions and attitudes computed by forward kinematics.", "quantifier": "all trees, all differentiable joint trajectories, all instants", "why_tests_cant": "Limits cannot be tested.", "anchors": ["src/rk_link.c:_rkLinkUpdateVel", "src/rk_joint_*.c"]}
{"id": "C37", "title": "Acceleration update gives the true second derivative of the posture", "statement": "For any chain whose joints move along twice differentiable trajectories, the linear and angular accelerations computed by the rate update are the time derivatives of the corresponding world velocities.", "quantifier": "all trees, all joint types, all twice differentiable trajectories", "why_tests_cant": "Limits cannot be tested; the error of one joint type only appears under combined translation and rotation.", "anchors": ["src/rk_link.c:_rkLinkUpdateAcc", "src/rk_joint_float.c:_rkJointFloatIncAccOnVel"]}
{"id": "C38", "title": "Inverse dynamics satisfies the principle of virtual power", "statement": "After rkChainUpdateID, the joint torques times any virtual joint velocities equal the power of the inertial wrenches minus that of the external wrenches over all links for the corresponding virtual link velocities.", "quantifier": "all trees, all joint types, all states, external wrenches and virtual velocities", "why_tests_cant": "Universal quantification over states and virtual motions.", "anchors": ["src/rk_link.c:rkLinkUpdateWrench", "src/rk_chain.c:rkChainUpdateID"]}
{"id": "C39", "title": "Root wrench equals the total rate of momentum minus external wrench", "statement": "After rkChainUpdateID the wrench stored at the root link equals, in the root frame, the sum over all links of their net inertial wrench minus their external wrenches.", "quantifier": "all trees, all states, all external wrench lists", "why_tests_cant": "All trees and values.", "anchors": ["src/rk_link.c:rkLinkUpdateWrench", "src/rk_chain.c:rkChainCalcExtWrench"]}
{"id": "C40", "title": "Forward dynamics solves the equation of motion", "statement": "The joint accelerations computed by rkChainABI make every joint satisfy its equation of motion: the wrench transmitted at the joint, projected on the joint axis, plus reflected rotor inertia torque equals the driving torque, with the wrench given by the Newton-Euler equations of the subtree.", "quantifier": "all trees with any joint types, all masses for which the projected inertias are non-singular, all states and external wrenches", "why_tests_cant": "All trees and values; a pendulum test covers one shape.", "anchors": ["src/rk_abi.c:rkChainABIUpdate", "src/rk_joint_*.c:_rkJoint*ABIAddABI,_rkJoint*ABIAddBias,_rkJoint*ABIQAcc"]}
{"id": "C41", "title": "Articulated body inertias stay symmetric and positive semidefinite", "statement": "Whenever every link's inertia is symmetric positive semidefinite with non-negative mass, every articulated body inertia computed in the backward pass is symmetric and positive semidefinite.", "quantifier": "all trees of fixed, revolute and prismatic joints, all states", "why_tests_cant": "Invariant along arbitrary trees.", "anchors": ["src/rk_abi.c:_rkLinkABIInitInertia,_rkLinkABIUpdateBackward", "src/rk_joint.c:rkJointXformMat6D"]}
{"id": "C42", "title": "Trial external forces leave the chain unchanged", "statement": "The functions that evaluate accelerations under additional external forces restore the accelerations and biases they saved, so that evaluating a trial force leaves no trace in later results.", "quantifier": "all trees, all trial wrenches, all histories of trials", "why_tests_cant": "History dependence.", "anchors": ["src/rk_abi.c:rkChainABIPushPrpAccBias,rkChainABIPopPrpAccBias,rkChainABIUpdateAddExForceTwo,rkChainABIPopPrpAccBiasAddExForceTwo"]}
{"id": "C43", "title": "ZMP is the zero-moment point", "statement": "When rkChainZMP returns a point, it lies at the requested height and the moment of the root wrench about that point is parallel to the gravity direction; it returns the null pointer exactly when the vertical force is negligible.", "quantifier": "all rigid root frames, all root wrenches, all heights", "why_tests_cant": "Identity over all reals.", "anchors": ["src/rk_chain.c:rkChainZMP,rkChainGravityDir"]}
{"id": "C44", "title": "Yaw torque is the moment about the vertical axis through the ZMP", "statement": "rkChainYawTorque equals the vertical component of the moment of the root wrench about the ZMP.", "quantifier": "all rigid root frames, all root wrenches with non-zero vertical force", "why_tests_cant": "No test covers it; the identity must hold for all wrenches.", "anchors": ["src/rk_chain.c:rkChainYawTorque"]}
{"id": "C45", "title": "Contact information lookup is symmetric and returns the first match", "statement": "rkContactInfoArrayAssoc gives the same entry for both orders of the two keys, returns the first registered entry whose key pair matches, returns null exactly when there is none or a key is missing, and the type variant does the same among the entries of the requested type.", "quantifier": "all contact information arrays, all key pairs", "why_tests_cant": "All arrays including duplicate entries.", "anchors": ["src/rk_contact.c:rkContactInfoAssoc,rkContactInfoArrayAssoc,rkContactInfoArrayAssocType"]}
{"id": "C46", "title": "IK cell identifiers are unique and lookups exact for every history", "statement": "After any sequence of rkIKCellReg and rkIKCellUnreg calls, identifiers of registered cells are pairwise distinct, each new cell gets the smallest unused identifier, the list is ordered by identifier, rkIKFindCell returns exactly the registered cell with that identifier, and unregistering removes exactly one cell.", "quantifier": "all register/unregister histories", "why_tests_cant": "Unbounded histories with holes in the identifier space.", "anchors": ["src/rk_ik.c:rkIKCellReg,rkIKCellUnreg,rkIKFindCell"]}
{"id": "C47", "title": "IK joint index reflects the registered joints for every history", "statement": "After any sequence of joint registrations and unregistrations the joint index used by the solver lists exactly the registered movable joints in increasing order, their column offsets are the running sums of sizes, and the weight vector holds each joint's weight at its columns.", "quantifier": "all chains, all register/unregister histories", "why_tests_cant": "Unbounded histories; the exceptional case is when the last joint is unregistered.", "anchors": ["src/rk_ik.c:_rkIKAllocJointIndex,rkIKJointReg,rkIKJointUnreg,rkIKJointRegAll"]}
{"id": "C48", "title": "IK constraint rows express the cells' velocity constraints", "statement": "For every enabled cell and axis, the assembled row applied to registered joint velocities equals the reference minus the fixed joints' contribution exactly when the full Jacobian row times the full joint velocity vector equals the cell's reference velocity; disabled cells contribute no row; no write leaves the matrix.", "quantifier": "all chains, joint registrations, cell sets with any modes and weights", "why_tests_cant": "All combinations of modes and registrations.", "anchors": ["src/rk_ik.c:_rkIKCellEq,rkIKEq"]}
{"id": "C49", "title": "IK solution step minimises the damped weighted error", "statement": "The joint velocity computed by the error-damped solver is the unique minimiser of the weighted squared constraint error plus the weighted squared joint velocity norm with damping.", "quantifier": "all constraint matrices, all references, all positive weights", "why_tests_cant": "Optimality over all competitors.", "anchors": ["src/rk_ik.c:rkIKJointVelAD"]}
{"id": "C50", "title": "IK iterations keep joints within limits and report convergence truthfully", "statement": "rkIKSolve returns a non-negative number only if the error changed by less than the tolerance in that iteration, performs at most the requested number of iterations, and every displacement it leaves in the chain respects the joint limits.", "quantifier": "all chains, cells, tolerances, iteration counts", "why_tests_cant": "All trajectories of the solver.", "anchors": ["src/rk_ik.c:rkIKSolve,rkIKSolveOne"]}
{"id": "C51", "title": "Binding an IK cell to the current state gives zero error", "statement": "Directly after rkIKBind, every cell whose reference was bound reports zero error until the chain or reference changes.", "quantifier": "all cells of all documented types, all chain states", "why_tests_cant": "All states and cell types.", "anchors": ["src/rk_ik.c:rkIKBind", "src/rk_ik_cell.c"]}
{"id": "C52", "title": "Clearing the IK accumulators removes all accumulated error", "statement": "After the accumulated error is zeroed, the next solver steps depend only on errors from then on, for every cell type.", "quantifier": "all cells, all histories before clearing", "why_tests_cant": "Residual state shows only with a particular history and cell type.", "anchors": ["src/rk_ik_cell.c:rkIKCellAcmZero", "src/rk_ik.c:rkIKAcmZero"]}
{"id": "C53", "title": "Collision pair registry stays consistent for every history", "statement": "After any sequence of chain and pair registration and unregistration calls, every registered pair refers to registered cells of different links, no pair is listed twice in either order, stationary cells are never paired with each other, and unregistering a chain removes exactly its cells and their pairs.", "quantifier": "all histories of registry calls", "why_tests_cant": "Unbounded histories.", "anchors": ["src/rk_cd.c:rkCDChainReg,rkCDChainUnreg,rkCDPairReg,rkCDPairUnreg,rkCDPairChainUnreg"]}
{"id": "C54", "title": "Pair registration registers all pairs of the two links", "statement": "After rkCDPairReg for two registered links every pair of their collision cells is registered.", "quantifier": "all registry states", "why_tests_cant": "Depends on which pairs existed before.", "anchors": ["src/rk_cd.c:rkCDPairReg"]}
{"id": "C55", "title": "Collision detection reports the current state only", "statement": "Each collision check reports for every registered pair exactly the outcome of its geometric tests for the current link frames, whatever checks were made before, and the number of colliding pairs equals the count of pairs flagged.", "quantifier": "all registry states, all previous checks, all link frames", "why_tests_cant": "Stale caches show only after particular histories.", "anchors": ["src/rk_cd.c:rkCDReset,rkCDColChkAABB,rkCDColChkOBB,rkCDColChkGJK,rkCDColChkGJKOnly,rkCDCellUpdateBB,rkCDCellUpdatePH"]}
{"id": "C56", "title": "Broad-phase filtering loses no collision", "statement": "If bounding boxes enclose their shapes, the staged check (axis-aligned box, oriented box, exact) flags exactly the pairs the exact-only check flags.", "quantifier": "all registry states, all shapes", "why_tests_cant": "Universal over shapes and states.", "anchors": ["src/rk_cd.c:rkCDColChkGJK,rkCDColChkGJKOnly"]}
{"id": "C57", "title": "Collision checks do not alter the registered shapes", "statement": "A collision check leaves the geometry used by all later checks unchanged.", "quantifier": "all registry states, all sequences of checks of different kinds", "why_tests_cant": "Needs a particular sequence of different checks on stationary shapes.", "anchors": ["src/rk_cd.c:rkCDColChkOBBVert,_rkCDColChkOBBVert"]}
{"id": "C58", "title": "Contact normals and tangents are direction vectors", "statement": "The contact axes attached to a contact vertex are unchanged by translating both bodies, i.e. they transform as directions.", "quantifier": "all contacts, all rigid motions of the scene", "why_tests_cant": "Only visible when a body frame is away from the origin.", "anchors": ["src/rk_cd.c:_rkCDVertNorm,_rkCDVertReg"]}
{"id": "C59", "title": "Truncation keeps only what lies beneath the planes", "statement": "After truncating a boundary representation by any sequence of planes, every remaining vertex of every face lies beneath or on each plane up to the tolerance, and no remaining face has lost its vertex/edge correspondence.", "quantifier": "all triangulated boundary representations, all sequences of planes", "why_tests_cant": "All geometric cases (27 sign patterns per face) and sequences.", "anchors": ["src/rk_cd_brep_trunc.c:rkBREPTrunc,_rkBREPTruncFace"]}
{"id": "C60", "title": "Motor lookup and cloning are exact", "statement": "rkMotorQueryAssign succeeds exactly for the documented motor type names and keeps the motor's name; rkMotorClone and rkMotorArrayClone give motors indistinguishable from the originals; rkMotorArrayFind returns the first motor with the given name and the null pointer exactly when there is none.", "quantifier": "all strings, all motors, all motor arrays", "why_tests_cant": "Quantifies over all names, all parameter values and arrays of every length.", "anchors": ["src/rk_motor.c: rkMotorQueryAssign, rkMotorClone, rkMotorArrayClone, rkMotorArrayFind"]}
{"id": "C61", "title": "Cloning a body keeps mass properties and net external wrench", "statement": "rkBodyClone gives the clone the same mass properties, the same shapes and an external wrench list with the same net wrench as the original for every list; the list order itself is reversed, so popping returns the oldest wrench first.", "quantifier": "all bodies and all external wrench lists", "why_tests_cant": "the reversal is invisible with one wrench and the net is order-independent; needs all lists", "anchors": ["src/rk_body.c:142-166", "src/rk_force.c:15-42"]}
{"id": "C62", "title": "Inverse dynamics conserves energy along every motion", "statement": "Run rkChainUpdateFK and rkChainUpdateID along a smooth motion q(t) of a chain, with the joint velocities and accelerations set to the derivatives of q. Then at each time the derivative of rkChainKE plus the potential energy (sum of m g z over the links' centres of mass) equals the inner product of the joint torques read by rkChainGetJointTrqAll with the joint velocities read by rkChainGetJointVelAll, plus the power of the external wrenches pushed on the links.", "quantifier": "all link trees, joint types, masses, symmetric inertias, smooth motions, gravity values and external wrenches; floating joints whose linear and angular velocity are parallel (the general case is refuted)", "why_tests_cant": "Energy balance is a statement about a derivative along every smooth motion of every mechanism; a test samples a few finite differences with rounding and discretisation noise that hides a wrong Coriolis term.", "anchors": ["src/rk_chain.c:rkChainUpdateID,rkChainKE", "src/rk_link.c:_rkLinkUpdateAcc,rkLinkUpdateWrench", "src/rk_joint_float.c:_rkJointFloatIncAccOnVel"]}
{"id": "C63", "title": "Incremental update under additional forces equals the whole algorithm", "statement": "After a regular update, computing accelerations incrementally with additional wrenches on any links gives exactly the link accelerations, joint accelerations, biases and inertias that the whole articulated body algorithm computes when those wrenches act besides the earlier ones from the beginning.", "quantifier": "all trees, all joint types, all states, all assignments of wrench lists to links", "why_tests_cant": "The incremental pass skips subtrees; that no skipped subtree matters holds for every placement of the forces only by induction over the tree.", "anchors": ["src/rk_abi.c:_rkLinkABIFindBackwardPathAddExForce,_rkLinkABIUpdateBackwardAddExForce,rkChainABIUpdateAddExForce,rkChainABIUpdateAddExForceGetWrench"]}
{"id": "C64", "title": "Contact information survives printing and reading", "statement": "Printing an array of contact information and reading the result gives the same array, with duplicate entries only warned about; the last keyword decides on the contact type; a file that gives every coefficient is read as the creation functions make them, whatever the order of the keys in each section; reading never dereferences a missing key, coefficients that are not given are zero, and rkContactInfoArrayWriteZTK writes the named file.", "quantifier": "all contact information arrays, all key sequences", "why_tests_cant": "All arrays and key orders, including sections without a binding.", "anchors": ["src/rk_contact.c:rkContactInfoFPrintZTK,rkContactInfoArrayFPrintZTK,rkContactInfoArrayFromZTK,_rkContactInfoBindFromZTK,rkContactInfoArrayWriteZTK", "src/rk_contact.c:15-38"]}
{"id": "C65", "title": "A registered IK cell takes exactly the attributes its mask selects", "statement": "After rkIKCellReg the new cell has the link, sublink, attention point and weight of the passed attributes for the bits set in the mask and the documented defaults (0, 0, zero vector, unit weights) otherwise or when no attributes are passed, carries the FORCE bit of the mask, is disabled on all axes, and all other registered cells are unchanged.", "quantifier": "all solvers, kinds of cells, attributes and masks", "why_tests_cant": "There are 32 masks for each of seven kinds and arbitrary attributes and prior cells; tests register a few fixed combinations.", "anchors": ["src/rk_ik_cell.c:17-43", "src/rk_ik.c:180-202"]}
{"id": "C66", "title": "The rows of a position cell give the rate of its error", "statement": "For the world position, link-to-link position and COM cells of the inverse kinematics solver, the velocity that the rows of the cell compute from the joint velocities is the rate at which the error of the cell decreases along any motion of the mechanism.", "quantifier": "all trees of joints, all smooth motions, all links and attention points", "why_tests_cant": "The Jacobian and the error are separate functions; that one is the derivative of the other is a statement about limits for every mechanism and motion.", "anchors": ["src/rk_ik_cell.c:78-162", "src/rk_jacobi.c"]}
{"id": "C67", "title": "An inverse kinematics sequence changes exactly the named cells", "statement": "After rkIKSeqCellSet every registered cell whose identifier occurs in the entries is enabled on all axes and has the weight and reference of its last entry, every other cell and the rest of the solver is unchanged, and entries for identifiers that are not registered have no effect.", "quantifier": "all histories of the solver, all sequence cells with any order and repetition of identifiers", "why_tests_cant": "The entries are applied through an identifier lookup in a list that any history of registrations may have shaped.", "anchors": ["src/rk_ik_seq.c:10-25", "src/rk_ik.c:211-218", "include/roki/rk_ik_cell.h:105-117"]}
{"id": "C68", "title": "A continuing contact keeps its plane and reference point on the other body", "statement": "When a vertex is in contact at two successive vertex checks, its reference point moves rigidly with the other body, its new projection lies on the contact normal through the vertex, and lies in the contact plane that the other body carries along.", "quantifier": "all registry states, all link frames before and after, all contact vertices", "why_tests_cant": "Needs two successive checks with bodies moving in general positions.", "anchors": ["src/rk_cd.c:_rkCDVertReg,_rkCDPairColChkVert"]}
{"id": "C69", "title": "Truncation keeps exactly the part of the surface beneath the planes", "statement": "The surface of a boundary representation after rkBREPTrunc by any sequence of planes is part of the surface before, lies beneath every plane up to the tolerance, and contains every point of the surface before that is beneath every plane by at least the tolerance.", "quantifier": "all well-formed boundary representations, all sequences of planes, all points of the surface", "why_tests_cant": "Quantifies over all points of the triangles, all 27 sign patterns of a face and all sequences of planes.", "anchors": ["src/rk_cd_brep_trunc.c:20-264"]}
{"id": "C70", "title": "Reset undoes every truncation", "statement": "After any sequence of truncations and resets of a boundary representation converted from a polyhedron, rkBREPReset gives back exactly what the conversion made.", "quantifier": "all polyhedra, all sequences of truncations and resets", "why_tests_cant": "Quantifies over all sequences of operations.", "anchors": ["src/rk_cd_brep.c:181-225", "src/rk_cd_brep_trunc.c:238-264"]}
{"id": "C71", "title": "Conversion from a polyhedron is faithful", "statement": "rkPH3D2BREP and rkPH3D2BREPInBox make one face of every (selected) triangle, whose vertices equal the corners of the triangle as far as the comparison of vectors tells, whose i-th edge joins the two vertices other than the i-th, and whose normal is that of the triangle; with an exact comparison the surface is the union of the triangles.", "quantifier": "all lists of triangles, all selections, all comparisons of vectors", "why_tests_cant": "Quantifies over all triangle meshes including degenerate and non-manifold ones.", "anchors": ["src/rk_cd_brep.c:27-145"]}
{"id": "C72", "title": "Conversion to a polyhedron gives the surface", "statement": "rkBREP2PH3D gives a polyhedron with the same surface as the boundary representation.", "quantifier": "all boundary representations", "why_tests_cant": "The coordinates written depend on addresses; discarded faces appear only after truncation.", "anchors": ["src/rk_cd_brep.c:148-170"]}
{"id": "C73", "title": "Saving a chain and loading it gives the same chain", "statement": "Printing a chain with rkChainFPrintZTK and reading the result with rkChainFromZTK gives a chain with the same name, shapes, motors and total mass, the same tree, and for every link the same name, mounting frame, mass properties, material, shapes and joint (type, displacement, limits, friction and stiffness parameters, thresholds, motor), at rest, with every link at the pose it has in the original configuration.", "quantifier": "all chains of any size and shape with any joints, motors and displacements", "why_tests_cant": "Tests load a handful of model files; a field dropped or converted with the wrong unit for one joint class shows only for some chains and displacements.", "anchors": ["src/rk_chain.c:619-752", "src/rk_link.c:239-386", "src/rk_joint_revol.c:264-332", "src/rk_joint_cylin.c:280-378", "src/rk_motor.c:48-115"]}
{"id": "C74", "title": "Posture files restore a posture", "statement": "The [init] section rkChainInitFPrintZTK writes for a chain, read by rkChainInitFromZTK into another chain of the same make, brings the root link and every joint to the posture of the first chain and updates all link frames.", "quantifier": "all pairs of chains of the same make in any two postures", "why_tests_cant": "The set of joints written depends on the posture written, the result on both postures.", "anchors": ["src/rk_chain.c:619-681", "src/rk_chain.c:789-801"]}
{"id": "C75", "title": "Any chain file is rejected or gives a usable chain", "statement": "Whatever the content of a description file, rkChainFromZTK either returns NULL or returns a chain with one link per [link] section, references inside the link array, consistent joint offsets, a mass that is not zero, whose links form one tree; it never dereferences NULL or recurses without end.", "quantifier": "all description files, including malformed ones", "why_tests_cant": "Malformed files are unbounded in number; the crash depends on which section is wrong.", "anchors": ["src/rk_chain.c:619-733", "src/rk_link.c:239-372", "src/rk_motor.c:106-115"]}
{"id": "C76", "title": "Truncation keeps the faces beneath the planes and the way faces face", "statement": "After rkBREPTrunc by any planes, every face none of whose corners was beyond a plane is still there with the same corners, also when it lies in a plane. Every face that is left, whole or part of an earlier one, has its corners in the order that makes it face the way the earlier face did, and is degenerate only if that one was. The stored normal of every face points the way its corners say, if it did before.", "quantifier": "for all boundary representations in correspondence, all positive tolerances and all sequences of planes", "why_tests_cant": "The order of the corners depends on which of 27 sign patterns a face has, and a reversed part of a face has the same points as one that is not reversed; lost normals show only in consumers that read them.", "anchors": ["src/rk_cd_brep_trunc.c:65-104", "src/rk_cd_brep_trunc.c:107-145", "src/rk_cd_brep_trunc.c:204-234", "src/rk_cd_brep_trunc.c:238-251"]}
{"id": "C77", "title": "Joint torsion splits a deviation into displacement and distortion", "statement": "rkJointTorsion takes the deviation of a link from its mounting frame and gives a displacement and a torsion such that a joint of that type, set to the displacement (rkJointSetDis) and mounted at the frame the torsion stands for (rkJointXform), reproduces the deviation. If the deviation was made by a joint within its limits on a distorted mounting, the distortion and the displacement of that joint come back.", "quantifier": "for all joint types, displacements within limits and rigid deviations that the type can decompose", "why_tests_cant": "test/joint_test.c draws random deviations, for which upside-down axes, tilts below the tolerance and aligned axes have probability zero; the split has eight formulas on a six-dimensional space.", "anchors": ["src/rk_joint.c:104-135", "src/rk_joint_hooke.c:152-165", "src/rk_joint_cylin.c:145-148", "src/rk_joint_spher.c:138-142", "src/rk_joint_fixed.c:40-44", "test/joint_test.c:174-220"]}
{"id": "C78", "title": "A configuration vector carries the posture of a chain", "statement": "rkChainGetConf reads the frames of all links of a chain as one vector. rkChainSetConf with that vector on a chain of the same links, mounting frames, joint types and limits gives every joint the displacement it had, so that the next rkChainUpdateFrame produces the frames of the vector.", "quantifier": "for all chains, trees and postures within joint limits", "why_tests_cant": "Displacements are recovered link by link from frames of parents, for any tree and mixture of joint types; failures need particular angles of universal joints.", "anchors": ["src/rk_chain.c:327-344", "src/rk_link.c:213-232", "include/roki/rk_joint.h:253"]}
{"id": "C79", "title": "The error an IK solver reports vanishes exactly when the constraints are met", "statement": "After rkIKSolveRate or rkIKSolveOne, the error left in each enabled cell is the weighted norm of the error of that cell in the posture before the step, and the error of the solver is the weighted norm of the errors of all enabled cells; it is zero exactly when no enabled axis of any cell has an error.", "quantifier": "for all chains, solvers and sets of cells with positive weights", "why_tests_cant": "Tests look at the posture after many iterations of a few cells with all axes enabled; the reported number decides when rkIKSolve stops for every set of cells.", "anchors": ["src/rk_ik.c:268-292", "src/rk_ik.c:342-368"]}
{"id": "C80", "title": "Impedance references follow the law of spring and damper", "statement": "The velocity that rkIKImpWldPos, rkIKImpWldAtt and rkIKImpWldCOM ask for differs from the true velocity of the point, link or centre of mass, that is from the time derivative of its position or attitude, by stiffness times error minus damping times that velocity, on every axis of the world frame.", "quantifier": "for all chains, motions and gains", "why_tests_cant": "A mistaken frame of the velocity shows only in postures in which link and world axes differ, and the claim is about derivatives.", "anchors": ["src/rk_ik_imp.c:13-60", "include/roki/rk_ik_imp.h:21-24"]}
{"id": "C81", "title": "An IK configuration file gives the solver it describes", "statement": "rkIKConfReadZTK on a file whose joint and constraint keys refer to links with movable joints and to existing constraint types, with a joint before the first constraint, gives one cell per constraint in the order of the file, numbered from 0, with the kind, links, attention point, weight and force flag written there and defaults otherwise; the joints asked for with their weights, the default being 0.001; and moves exactly the joints written with weight zero to the displacement written in degrees. Files with errors are rejected.", "quantifier": "for all chains with distinct link names, all such files in any order of keys, and any content of uninitialised memory", "why_tests_cant": "Order of keys, repeated keys and defaults combine without bound, and a value read from uninitialised memory is often zero in a test.", "anchors": ["src/rk_ik.c:410-530", "src/rk_ik.c:137-202", "src/rk_ik_cell.c:17-43"]}
{"id": "C82", "title": "IK sequence files keep the sequence", "statement": "Writing a sequence by rkIKSeqFPrint and reading it by rkIKSeqFScan gives the same items in the same order: durations, cell identifiers, weights and reference values.", "quantifier": "for all sequences", "why_tests_cant": "The number of items and of entries per item is unbounded; items without entries depend on the allocator.", "anchors": ["src/rk_ik_seq.c:61-130"]}
{"id": "C83", "title": "Inverse dynamics has a symmetric inertia matrix", "statement": "The joint torques found by rkChainID for two sets of joint accelerations at the same configuration and velocities differ by an amount that depends on the configuration and the two sets only, not on velocities, gravity or external wrenches. Paired with any joint velocities u, the difference is the sum over the links of mass times the product of the COM velocities plus the product of the angular velocities through the inertia tensor, for the motions rkChainSetJointVelAll and rkChainUpdateVel give. So the map is symmetric, its power along the difference of the accelerations is twice the kinetic energy rkChainKE finds for that difference, and if no joint motion is without kinetic energy the torques determine the accelerations.", "quantifier": "for all trees of links, joint types, configurations, velocities, accelerations, masses and external wrenches", "why_tests_cant": "The statement is an identity over every tree shape and all real states; a test samples a few chains.", "anchors": ["src/rk_chain.c:367-388", "src/rk_link.c:130-211", "src/rk_chain.c:486-496"]}
{"id": "C84", "title": "URDF conversion keeps the mechanism", "statement": "For a URDF document whose links and joints form a tree with the first link as root, urdf2ztk writes a file that reads as a chain with the same link names and the same parents, whose bodies carry the shapes of the visual elements. If the joints are fixed, revolute, continuous or prismatic and turning each joint frame about the axes of the base brings its z axis to the joint axis (so it is when no origin is rotated and no axis is -z), then at all joint displacements each link of the chain is where the URDF standard puts it, but for a constant turn of its frame that makes its z axis the joint axis, and each shape is where the standard puts the visual element if names are not repeated.", "quantifier": "for all documents of the stated form and all joint displacements", "why_tests_cant": "The claim ranges over every tree, joint order, origin, axis and displacement; the failures found (rotated origins with an axis other than the z axis, root not first, repeated names of visuals) need particular combinations.", "anchors": ["app/urdf2ztk.c:106-130", "app/urdf2ztk.c:281-476", "app/urdf2ztk.c:480-570", "app/urdf2ztk.c:624-734"]}
{"id": "C85", "title": "URDF conversion keeps mass properties", "statement": "The chain read from a converted document has the mass of every link, and the center of mass and inertia tensor of the first link. At every displacement a link has its center of mass and inertia tensor in the world where the document puts them if its parent's frame was not turned and its own turn leaves the center of mass alone. If no origin is rotated and all axes are the z axis, frames, centers of mass and inertia tensors of all links are those of the document.", "quantifier": "for all documents of the stated form and all joint displacements", "why_tests_cant": "Masses and inertia do not show in kinematic tests, and the errors found (center of mass left in the old frame, inertia turned by the wrong rotation below the first level) vanish on symmetric or shallow models.", "anchors": ["app/urdf2ztk.c:169-207", "app/urdf2ztk.c:480-570", "app/urdf2ztk.c:697-722"]}
{"id": "C86", "title": "URDF conversion keeps joint attributes", "statement": "In the chain read from a converted document the limits of each revolute or prismatic joint are those of the document when both are written, and a continuous joint without limits is unlimited. Damping, friction, floating and planar joints, limits left out and limits on continuous joints are not kept as the standard defines them.", "quantifier": "for all trees of links and joints", "why_tests_cant": "Each attribute has a default that hides a lost value; all combinations of type and optional attributes are covered here.", "anchors": ["app/urdf2ztk.c:369-445", "app/urdf2ztk.c:536-549", "app/urdf2ztk.c:654-695"]}
{"id": "C87", "title": "rk_mp prints the mass property of the chosen links", "statement": "For a chain posed by forward kinematics and a sequence of link numbers, the program rk_mp prints the mass property of the rigid body formed by the chosen links: its mass is the sum of their masses, and in every rigid motion its momentum, angular momentum and kinetic energy are the sums of those of the links. It is the only mass property with that behaviour, is independent of the order of the numbers, and equals every pairwise combination by rkMPCombine. Below the tolerance for the total mass this fails.", "quantifier": "for all trees of links, joint displacements, lists of link numbers, and rigid motions", "why_tests_cant": "The claim ranges over all motions, postures and selections; a test compares a few numbers.", "anchors": ["app/rk_mp.c:75-154", "src/rk_body.c:62-86"]}
{"id": "C88", "title": "cad2ztk writes the chain described by the CAD tables", "statement": "For a link table that describes one tree whose root is in the first row, with rigid frames and symmetric inertia tensors given in the world frame in mm and g, and a shape table that refers to its links, the chain file written by cad2ztk is read as a robot with the same links in the same order (names, joint types, parents, shapes). In forward kinematics each link has to its parent the place it has in the table composed with the displacement of its joint; with no displacement every link is where the table says, in metres, with the mass, centre of mass and inertia tensor of the table, in kg and m. The script moves each shape file from the frame of the part to the frame of its link. When a row names a parent that is not in the table nothing is written. The program itself exits before reading any table (refuted); a root in a later row and a shape of an unknown link are mishandled (refuted).", "quantifier": "all valid link and shape tables, all joint types, all displacements", "why_tests_cant": "The tables are arbitrary trees with arbitrary frames and mass properties; a test checks a few robots and cannot separate the transformations of all poses, units and orders of rows.", "anchors": ["app/cad2ztk.c:45-80", "app/cad2ztk.c:95-157", "app/cad2ztk.c:395-458", "app/cad2ztk.c:460-492", "src/rk_chain.c", "src/rk_link.c:273-363", "app/cad2ztk.c:27-43"]}
{"id": "C89", "title": "cad2ztk writes the URDF description of the CAD tables", "statement": "For the same tables with fixed, revolute, prismatic and float joints the URDF file written by cad2ztk has a link element for each row whose inertial element, as urdf2ztk reads it, is the mass property of the table in kg and m in the frame of the link, and a joint element for each row that connects the link to its parent and places its origin as the table says. The attitude is that of the table when its azimuth and tilt are equal; otherwise the angles are written in the wrong order (refuted). Every such file is undefined behaviour in urdf2ztk, as the root is written as the child of a link named nil (refuted), and a joint of another type is undefined behaviour in cad2ztk (refuted).", "quantifier": "all valid link and shape tables", "why_tests_cant": "Whether a written file can be read, and how its angles are understood, depends on the composition of two programs over all trees and attitudes.", "anchors": ["app/cad2ztk.c:274-377", "app/urdf2ztk.c:121-130", "app/urdf2ztk.c:193-207", "app/urdf2ztk.c:357-361"]}
{"id": "C90", "title": "rk_fk prints the poses of a link along a sequence of displacements", "statement": "For a chain ready for use, a link name of the chain and a sequence of at least one step with vectors of the size of the chain, rk_fk prints one line per step. Line k carries the sum of the time steps before step k, and the position and attitude that the first link of that name has after rkChainFK of the chain as read with the vector of step k alone; nothing is left of earlier steps. With a name that no link has it prints nothing. An empty sequence is undefined behaviour (refuted).", "quantifier": "all chains ready for use, link names and sequences", "why_tests_cant": "That no step leaves a trace in later ones quantifies over all sequences and all trees of links.", "anchors": ["app/rk_fk.c:92-96", "app/rk_fk.c:108-143"]}
{"id": "C91", "title": "rk_id prints the inverse dynamics of a sequence of displacements", "statement": "For a chain ready for use with joints at rest and a sequence of displacements that the joints can take, rk_id prints one line per step in each log file. Line k carries the sum of the time steps before step k and shows the state that the chain as read gets from rkChainFK with the vector of step k and rkChainID with the backward differences of the sequence at k divided by the time step of k (before the first step the joints rest at the first vector): centre of mass, its velocity and its acceleration less (0,0,g), the ZMP on the floor, attitude of the root link, angular momentum about the centre of mass, and the torques of all joints at their offsets. It gets to the end if every such state has a ZMP. The acceleration printed is that of the centre of mass in inverse dynamics of the same motion without gravity. It is not so for joints that turn beyond half a turn, the velocities are not those between the printed times when time steps differ, and in free fall uninitialised numbers are printed (refuted).", "quantifier": "all chains ready for use, gravitational accelerations and sequences", "why_tests_cant": "The joints carry displacements and velocities from step to step; equality with a computation without history holds over all trees, joint types and sequences and fails only past half a turn or with uneven steps.", "anchors": ["app/rk_id.c:118-135", "app/rk_id.c:139-167", "src/rk_chain.c:383-388"]}
{"id": "C92", "title": "rk_ik prints one posture per step of the sequence, moves only what the step asks for, and stays within limits", "statement": "For a solver prepared by calls that set up joints and cells (or by a configuration file without initial postures), with some joint registered, positive joint weights, cells that are not forced and follow a position or an attitude, and a sequence without negative weights: rk_ik prints one line per step, never crashes, and line k carries the time step of step k and the joint displacements of the posture reached by the calls rkIKDeactivate, rkIKBind, rkIKSeqCellSet and rkIKSolve for the steps up to k; with at least one iteration the joints are within their limits. In each step a cell that the step names is told the reference and weight of its last entry, and every other cell is told to stay where it is, with the weight last given to it. A step that names no cell repeats the displacements of the line before. It is not so that a step which moves nothing leaves later steps unaffected (weights stay), nor that a posture given by the configuration file is kept by such a first step, since the frames are stale (refuted).", "quantifier": "all chains, histories of set-up calls, configuration files, sequences, tolerances and numbers of iterations", "why_tests_cant": "The solver carries modes, references, weights and joint displacements from step to step; the claim is over all sequences and all cells, and the failures need a particular order of steps or a stale frame.", "anchors": ["app/rk_ik.c:83-85", "app/rk_ik.c:97-125", "src/rk_ik.c:221-240", "src/rk_ik.c:353-369", "src/rk_ik_seq.c:10-25"]}
{"id": "C93", "title": "zvs2zkcs prints configurations that restore the pose of every step", "statement": "For a chain ready for use and a sequence of vectors of the size of the chain, zvs2zkcs prints on standard output one line per step with the time step and the configuration (position and angle-axis vector of every link) that the chain as read has after rkChainFK with the vector of that step alone; nothing is left of earlier steps. If the limits of the joints are ordered and universal joints are bent by less than a right angle in the step, rkChainSetConf with that line on any chain of the same mechanism, whatever its posture, gives every link the frame of the step, forward kinematics confirms those frames, and the displacements of the step come back for joints whose angle-axis vectors are shorter than a half turn. With an output file as third argument nothing gets written to it (refuted).", "quantifier": "all chains ready for use, sequences, steps and chains of the same mechanism", "why_tests_cant": "It is over all trees, joint types, limits and sequences and over whatever posture the reading chain is in; displacements clipped at limits and attitudes past half a turn are corner cases of the round trip.", "anchors": ["app/zvs2zkcs.c:14-50", "src/rk_chain.c:327-344"]}
{"id": "C94", "title": "the initial posture printed by zvs2zkci restores the step it was made from", "statement": "For a chain ready for use (after the initial posture given as fourth argument, if any) with ordered limits and different link names, and the step chosen (first, last or n-th): zvs2zkci prints an [init] section which, read by a copy of the chain, gives every link the frame it has after rkChainFK with the vector of the step, provided the joints that are neutral in the step are neutral likewise in the copy. Without this proviso it fails, since neutral joints are not printed (refuted), and a sequence without steps is undefined behaviour (refuted).", "quantifier": "all chains, copies, sequences, chosen steps and initial postures", "why_tests_cant": "It is over all trees of links, joint types, limits and states of the reading chain; a test with a fresh chain cannot show that neutral joints are left out.", "anchors": ["app/zvs2zkci.c:14-35", "src/rk_chain.c:797-801"]}
{"id": "C95", "title": "rk_ground prints a contact that carries the mass at the depth asked for, with the damping asked for", "statement": "For a mass and a depth above zero (the depth above the tolerance), the section rk_ground prints, read by rkContactInfoArrayFromZTK, is an elastic contact with the friction coefficients given, whose elasticity k times the depth is the weight of the mass, whose viscosity c satisfies c^2 = 4 zeta^2 k m with the sign of zeta, and on which the mass moves without oscillation exactly when zeta is at least 1 in magnitude. It is not so that four arguments are refused (the fifth is read from a null pointer), that depths below zero are refused (the viscosity is not a number), or that the section is bound to a pair of stuff: null pointers are printed as names, which is undefined (refuted).", "quantifier": "all masses, depths, damping and friction coefficients, gravitational accelerations and further arguments", "why_tests_cant": "It is a relation between the printed numbers over all real arguments and what they mean for the motion; with a library that prints null pointers a test does not notice that the names are undefined.", "anchors": ["app/rk_ground.c:14-38", "src/rk_contact.c:28-38", "src/rk_contact.c:108-126"]}
{"id": "C96", "title": "ikcell_merge puts seed files together record by record up to the end of the shortest", "statement": "For any number of seed files (records of a count and that many entries of a number, a weight and three values), ikcell_merge prints as many records as the shortest file has; record t has the entries of record t of all files in the order of the files, and their number as its count. What is printed is a seed file, and merging it with a further file gives what merging all files at once gives. Sequence files as rkIKSeqFPrint writes them (time step first, three weights per entry) cannot be merged (refuted: not even a single one is copied).", "quantifier": "all lists of files with any number of records and entries", "why_tests_cant": "It is over any number of files of any lengths, with records of any numbers of entries, including empty ones.", "anchors": ["app/rk_ikcell_merge.c:40-65", "src/rk_ik_seq.c:107-130"]}
{"id": "C97", "title": "rkChainVertList lists the vertices of all links in the world, and rkChainBBall moves with the chain", "statement": "For any chain whose links refer to existing shapes, rkChainVertList gives exactly the vertices of the shapes of all links, placed by the frames of the links, and NULL exactly when a shape that is not a polyhedron cannot be converted. If zBBall3DPL encloses the points it is given, all vertices lie in the ball of rkChainBBall. If the root of a chain of polyhedra is mounted at a frame displaced by a rigid transformation and the frames are updated, all vertices are displaced by it; when zBBall3DPL gives the smallest ball, the ball keeps its radius and its center is displaced.", "quantifier": "all chains, trees, joints, shapes and rigid displacements", "why_tests_cant": "It is over all trees and all displacements, and smallness of the ball is against all balls.", "anchors": ["src/rk_chain.c:537-566", "src/rk_chain.c:569-579"]}
{"id": "C98", "title": "rkBodyContigVert finds the vertex nearest in the world", "statement": "If zShapeListContigVert gives a vertex of the list nearest to the given point and its distance, then for a body at any rigid frame and any point of the world rkBodyContigVert gives a vertex of the body whose place in the world is nearest to that point among all vertices of the body, and the distance in the world.", "quantifier": "all bodies, rigid frames and points", "why_tests_cant": "It is over all frames, points and sets of vertices.", "anchors": ["src/rk_body.c:288-294"]}
{"id": "C99", "title": "chain2mshape and mshape2chain keep the vertices of the chain", "statement": "For any chain whose shapes have distinct names and are each on one link only, the shapes that chain2mshape writes, put into a chain file by mshape2chain and read by rkChainFromZTK, give a chain of one link at the origin with as many shapes, whose vertices are those of the original chain in the world up to their order. When a shape is on two links this fails (refuted): it is written twice under one name and the reader finds the first for both.", "quantifier": "all chains, frames and shapes", "why_tests_cant": "It is over all chains with any numbers of links and shapes.", "anchors": ["app/chain2mshape.c:9-37", "app/mshape2chain.c:9-27", "src/rk_link.c:299-307", "src/rk_chain.c:699-733"]}
{"id": "C100", "title": "rkJacobiManip is zero exactly where a direction of motion is lost", "statement": "For a Jacobian of three rows, rkJacobiManip is not negative; it is zero exactly if there is a direction in which no column has a component. For the Jacobian of a point of a link of any usable chain it is zero exactly if there is a direction of the world in which no joint rates move the point, and for the angular Jacobian exactly if there is an axis about which no joint rates turn the link. Of three columns it is the volume they span, it does not change when all columns are rotated, and a further column does not lower it.", "quantifier": "all Jacobians of three rows and any number of columns; all usable chains, postures, links and points", "why_tests_cant": "It is over all chains and postures, and zero measure is against all directions and all joint rates.", "anchors": ["src/rk_jacobi.c:207-220"]}
{"id": "C101", "title": "Methods that resolve the joint velocities, and the solver loop with any method", "statement": "With the SR method the joint velocities of a step are the unique minimiser of the weighted squared error of the constraints plus the weighted squared velocities. With the MP method (given that zLESolveMP returns the MP-inverse solution of the call) the weighted squared error is the least possible, among velocities with that error the weighted squared velocities are the least and no other velocities are as good; constraints that can be met are met. When nothing is asked for, MP, SR and the default method leave the joints at rest. SR and the default method also meet constraints that can be met (false: witness). Whatever function is set by rkIKSetJointVelMethod, rkIKSolve makes at most the given number of steps, stops after the first step whose error is close to that of the step before and returns its number or -1, leaves all joints within their limits, and hands back the displacements of the chain.", "quantifier": "All chains, histories of registrations and settings, weights, references, methods, tolerances and numbers of iterations.", "why_tests_cant": "Tests try single poses with the default method; optimality and uniqueness range over all joint velocities, and the claims on the loop over all methods a user may set.", "anchors": ["src/rk_ik.c:294-323", "src/rk_ik.c:326-368", "include/roki/rk_ik.h:197-200"]}
{"id": "C102", "title": "Conversion of URDF does not depend on how the document is written", "statement": "For a robot description, all documents that write it are converted to the same ZTK file by urdf2ztk: the elements of the robot, of a link, of an inertial or visual element and of a joint may come in any order (links, joints and visual elements each keep their order among themselves), attributes may come in any order, origins that are zero may be left out wholly or by attribute, and other elements and attributes (collision, material, mimic, dynamics) may be anywhere in between. Hence the structure and, under the conditions of C84, the poses are those described.", "quantifier": "All robot descriptions that form one tree with the root link first, all documents that write them.", "why_tests_cant": "There are as many documents as there are orders and inserted elements; sample files come in the customary order, in which an evaluator that resets fields or depends on elements seen before works as well.", "anchors": ["app/urdf2ztk.c:121-350", "app/urdf2ztk.c:351-476"]}
{"id": "C103", "title": "The order of keys in a section of a chain file does not matter", "statement": "Reading a chain file in which motors, shapes, joint types and links of the initial state that are referred to exist gives the same robot, or the same failure, for every other order of the keys within its sections in which keys that write the same field, and a displacement and its limits, keep their order: a name, a joint or motor type or the mass may come after the keys that depend on it. The exceptions are real: a displacement is clamped to the limits read before it, and keys after one that fails may be lost.", "quantifier": "All chain files whose references resolve, all such orders of keys in all sections, either behaviour of the ZTK library after a failure.", "why_tests_cant": "The number of orders grows factorially with the number of keys; sample files and the library's own output come in one customary order, in which a handler that resets another field or needs an earlier key works as well.", "anchors": ["src/rk_link.c:239-363", "src/rk_motor.c:48-74", "src/rk_chain.c:619-733"]}
{"id": "C104", "title": "A forced position cell asks for its error plus the sum of its errors", "statement": "After a position, link-to-link position or COM cell was registered or rkIKAcmZero was called, and any further calls other than rkIKAcmZero, rkIKSolve and the removal of the cell, the velocity the cell asks for in the next step is its present error e if it is not forced, and e plus the sum of e and of its errors at all velocity steps in between at which it was forced and enabled if it is forced. The rows assembled by rkIKEq are met exactly by the joint velocities that move the cell by that much along the enabled axes.", "quantifier": "All chains, all histories of calls before and after, all cells of the three position types.", "why_tests_cant": "The amount depends on the whole history of postures, modes and references since clearing; single steps after clearing cannot tell an accumulated from a doubled error.", "anchors": ["src/rk_ik_cell.c:207-210", "src/rk_ik.c:268-292", "src/rk_ik.c:239-245"]}
{"id": "C105", "title": "Mounting a robot elsewhere moves its world quantities and leaves its dynamics unchanged", "statement": "If the frame at which the root link is mounted is premultiplied by a rigid transformation T, then rkChainFK with the same displacements gives every link its former world frame and world centre of mass moved by T, and moves the centre of mass of the chain by T. If in addition T keeps the vertical (a shift and a turn about the z axis), rkChainID with the same velocities and accelerations gives the same joint torques, link velocities, accelerations and wrenches, the same kinetic energy and yaw torque, turns the velocity and acceleration of the centre of mass by T, turns the angular momentum about the moved point, and moves the zero moment point at the moved height by T. It runs through whenever the original does.", "quantifier": "All well-formed chains with joints of any type, all displacements, velocities, accelerations, external forces and gravity values, all rigid T.", "why_tests_cant": "The relation holds between two runs for every tree, joint type and transformation; a frame mixed up in one term of one pass shows only for chains with that joint type in a turned base, and a test with a base at the origin never sees it.", "anchors": ["src/rk_link.c:118-128", "src/rk_link.c:130-211", "src/rk_chain.c:353-373", "src/rk_chain.c:402-496"]}
{"id": "C106", "title": "Data of colliding pairs after a volume computation", "statement": "After rkCDColVolBREP or rkCDColVolBREPFast, the pairs reported as colliding are those whose oriented boxes meet and whose polyhedra, placed where the links are now, have vertices left after mutual truncation (and, for the former, whose hull is a solid); the number reported is their count. The normal of such a pair is the direction of the area of the second body's part of the surface minus that of the first's (upward when tiny), the contact axes are the normal and the orthogonal vectors ZEO gives for it, the volume is the hull of the vertices left, and the center its barycenter: nothing in the pair before the call matters. If the two parts bound a solid, the normal points against the outward area of the first body's part; exchanging the bodies reverses it. False for rkCDColVol, which never writes the normal and makes the axes of a colliding pair from whatever the pair held before (zero in a new pair), and rkCDColVolBREPFast runs into undefined behaviour when the boxes of two polyhedra have no box in common.", "quantifier": "all histories of registrations, pair operations and checks other than rkCDColChkOBBVert, all link frames, all prior data of the pairs, all geometry functions of ZEO; all lists of faces", "why_tests_cant": "Whether data of an earlier call can leak into a later one depends on histories and on what allocation left in the pair; the direction of the normal depends on unboundedly many faces.", "anchors": ["src/rk_cd.c:577-604", "src/rk_cd.c:606-660", "src/rk_cd.c:662-711", "src/rk_cd.c:713-760"]}
{"id": "C107", "title": "rkCDColVolBREPVert treats each pair by its contact type", "statement": "After rkCDColVolBREPVert, a pair whose contact information is of the rigid type has the flag, normal, axes, center and volume rkCDColVolBREP would have given it, every other pair the flag and contact vertices rkCDColChkVert would have given it and its other data unchanged, and the number reported is the number of rigid colliding pairs plus the number of contact vertices of the others. False for the contact vertices of rigid pairs, which stay in the list from earlier calls as long as the boxes meet.", "quantifier": "all histories of registrations, pair operations and checks other than rkCDColChkOBBVert, all link frames, all assignments of contact types, all prior data of the pairs, all geometry functions of ZEO", "why_tests_cant": "Relates three calls on the same state for all histories and all assignments of types to pairs; the two halves share cached polyhedra, which a test sees only in one order.", "anchors": ["src/rk_cd.c:762-787", "src/rk_cd.c:662-697", "src/rk_cd.c:485-510"]}
{"id": "C108", "title": "Forward dynamics of a robot mounted elsewhere gives the same accelerations", "statement": "If the frame at which the root link is mounted is premultiplied by a transformation T that keeps the vertical (a shift and a turn about the z axis), rkChainABI with the same displacements, velocities, motor inputs and forces on the links returns the same joint accelerations and leaves the same joint states, link velocities, link accelerations and joint wrenches, the same articulated inertias and bias forces, and the same breakage of breakable joints; the world frames and world centres of mass of the links are the former ones moved by T. It returns accelerations whenever the original does.", "quantifier": "All well-formed chains with joints of any type (also those for which the algorithm is wrong), all displacements, velocities, forces and gravity values, all T keeping the vertical, any matrix inversion.", "why_tests_cant": "The relation is between two runs for every tree, joint type and mount; a term that uses the frame of the root where the local frame is meant shows only for a base that is turned or shifted, and the sample robots stand at the origin.", "anchors": ["src/rk_abi.c:86-132", "src/rk_abi.c:135-215", "src/rk_abi.c:239-264", "src/rk_link.c:118-148"]}
{"id": "C109", "title": "Inverse dynamics is linear in the mass properties of the links", "statement": "For one chain at one displacement, velocity and acceleration, let the mass, the first moment of mass, the moment of inertia about the link origin and the net external wrench of every link be x times those of a first set plus y times those of a second set. Then rkChainFK and rkChainID with the combined set leave the same link frames, velocities and accelerations as with either set, and every link wrench and joint torque (rkChainGetJointTrqAll) is x times that of the first set plus y times that of the second. In particular, attaching a payload to each link with rkMPCombine adds exactly the torques that the payloads alone need on massless links; and with all masses and inertias multiplied by k and no external forces, all torques are multiplied by k.", "quantifier": "All well-formed chains with joints of any type, all displacements, velocities, accelerations and gravity values, all mass properties (also zero or negative masses), all x, y, k; payloads for which no sum of a link mass and its payload mass is zero.", "why_tests_cant": "Linearity relates three runs for every tree, motion and set of inertia parameters; a test compares one number for one robot, and an error that mixes the centre of mass with the inertia cancels for payloads placed at the origin or at rest.", "anchors": ["src/rk_link.c:188-211", "src/rk_body.c:251-261", "src/rk_body.c:43-86", "src/rk_chain.c:353-373"]}
{"id": "C110", "title": "The same motion at another tempo needs torques that scale with the square of the tempo", "statement": "If rkChainID is called for the same posture with all joint velocities multiplied by k, all joint accelerations by k squared, and gravity and the external wrenches by k squared, then link velocities, the velocity of the centre of mass and the angular momentum are multiplied by k; link accelerations, link wrenches, all joint torques (rkChainGetJointTrqAll), the acceleration of the centre of mass and the kinetic energy are multiplied by k squared; frames are the same, and the ZMP, where both runs have one, is the same point. The result does not depend on velocities, accelerations, torques and wrenches left in the chain by earlier calls.", "quantifier": "All well-formed chains with joint offsets set and joints of any type, all k including zero and negative numbers (k not zero for the ZMP), all velocities, accelerations, gravity values and external wrenches.", "why_tests_cant": "Homogeneity relates two runs for every mechanism and every factor; a wrong power of a velocity in one term of one joint type is invisible at the one speed a test uses and when the term is small.", "anchors": ["src/rk_link.c:130-185", "src/rk_link.c:188-211", "src/rk_chain.c:275-285", "src/rk_chain.c:367-373", "src/rk_chain.c:448-496", "src/rk_body.c:223-290"]}
{"id": "C111", "title": "chain2gp draws exactly the faces of the chain", "statement": "The output of chain2gp, read as gnuplot reads it (an empty line ends a row of points, a second one ends a surface), has one surface for each face of each shape of each link and no other, and the points of this surface are exactly those of the triangle that the face is in the world frame of its link. A chain mounted elsewhere is drawn by the same surfaces moved with it. This holds for every chain whose shapes can be listed as vertices.", "quantifier": "All chains whose links refer to shapes there are, all polyhedra whose faces name vertices they have, all link frames, all placements.", "why_tests_cant": "The degenerate second row, the empty lines and the choice of corners must be right for every face; a plot that looks right for one robot does not show a missing or doubled face, and the sample files have one kind of shape.", "anchors": ["app/chain2gp.c:9-21", "app/chain2gp.c:23-44"]}
{"id": "C112", "title": "The inertial ellipsoid is a property of the body, not of the choice of principal axes", "statement": "The surface of the ellipsoid that rkMPInertiaEllips creates is the unit sphere mapped by the inertia tensor and moved to the center of mass, whatever eigenvectors zMat3DSymEig picks, in whatever order and of whatever hand. Its radii are the moments of inertia about its axes through the center of mass. If the mass property is moved by rkMPXform, the ellipsoid of the result is the ellipsoid moved in the same way.", "quantifier": "All mass properties, all rigid frames, all points, all eigenvalue routines that give orthonormal eigenvectors with their eigenvalues for the inertia tensors at hand.", "why_tests_cant": "A test compares radii and axes for some bodies; it does not show that for every body, also with equal principal moments and with axes reordered by the motion, the same set of points results.", "anchors": ["src/rk_body.c:89-96", "src/rk_body.c:24-30"]}
