-Q theories Verif
theories/Base/Deriv.v
theories/Base/Det.v
theories/Base/FNum.v
theories/Base/FloatOps.v
theories/Base/HullDobell.v
theories/Base/Lists.v
theories/Base/PolyR.v
theories/Base/RNum.v
theories/Base/Scalar.v
theories/Base/Series.v
theories/Base/Stream.v
theories/Base/Trig.v
theories/Base/XNum.v
theories/Model/Approximation.v
theories/Model/AttitudeControl.v
theories/Model/AttitudeFilter.v
theories/Model/Biquad.v
theories/Model/Cholesky.v
theories/Model/Collision.v
theories/Model/Conditioning.v
theories/Model/Derivative.v
theories/Model/Drive.v
theories/Model/Dual.v
theories/Model/ErrorState.v
theories/Model/Errors.v
theories/Model/Expm.v
theories/Model/FollowGap.v
theories/Model/GaussTables.v
theories/Model/HyperDual.v
theories/Model/Integration.v
theories/Model/InverseKinematics.v
theories/Model/Jet.v
theories/Model/Kalman.v
theories/Model/KinematicTree.v
theories/Model/Lie.v
theories/Model/Localizer.v
theories/Model/Lu.v
theories/Model/Mapping.v
theories/Model/Matrix.v
theories/Model/MinimumSnap.v
theories/Model/Motion.v
theories/Model/Multivariate.v
theories/Model/NewtonSystem.v
theories/Model/Ode.v
theories/Model/Optimization.v
theories/Model/ParticleFilter.v
theories/Model/Pid.v
theories/Model/Piecewise.v
theories/Model/Plant.v
theories/Model/Polynomial.v
theories/Model/Qr.v
theories/Model/Quaternion.v
theories/Model/Random.v
theories/Model/Riccati.v
theories/Model/RigidBody.v
theories/Model/RootFinding.v
theories/Model/Roots.v
theories/Model/Summation.v
theories/Model/Svd.v
theories/Model/Unscented.v
theories/Model/Vector.v
theories/Model/VectorField.v
theories/Model/Window.v
theories/Proofs/Algebra.v
theories/Proofs/Angle.v
theories/Proofs/Attitude.v
theories/Proofs/AttitudeControl.v
theories/Proofs/AttitudeFilter.v
theories/Proofs/Autodiff.v
theories/Proofs/Biquad.v
theories/Proofs/Cholesky.v
theories/Proofs/Collision.v
theories/Proofs/Conditioning.v
theories/Proofs/Damped.v
theories/Proofs/Derivative.v
theories/Proofs/DiffAlg.v
theories/Proofs/Drive.v
theories/Proofs/Dual.v
theories/Proofs/Duhamel.v
theories/Proofs/Eigen.v
theories/Proofs/ErrorSensor.v
theories/Proofs/ErrorState.v
theories/Proofs/ErrorStep.v
theories/Proofs/Euler.v
theories/Proofs/ExpIntegral.v
theories/Proofs/Expansion.v
theories/Proofs/Expm.v
theories/Proofs/Flow.v
theories/Proofs/FollowGap.v
theories/Proofs/FrameMotion.v
theories/Proofs/Gaussian.v
theories/Proofs/HyperDual.v
theories/Proofs/Improper.v
theories/Proofs/Inertia.v
theories/Proofs/Integration.v
theories/Proofs/InverseKinematics.v
theories/Proofs/InverseStep.v
theories/Proofs/Jacobian.v
theories/Proofs/Jet.v
theories/Proofs/JetAlg.v
theories/Proofs/Kalman.v
theories/Proofs/KinematicJacobian.v
theories/Proofs/KinematicMotion.v
theories/Proofs/KinematicTree.v
theories/Proofs/KinematicVelocity.v
theories/Proofs/Levenberg.v
theories/Proofs/Lu.v
theories/Proofs/Lyapunov.v
theories/Proofs/Mapping.v
theories/Proofs/Matrix.v
theories/Proofs/MatrixSeries.v
theories/Proofs/MinimumSnap.v
theories/Proofs/Motion.v
theories/Proofs/MotionJacobian.v
theories/Proofs/MotionOptimal.v
theories/Proofs/Multivariate.v
theories/Proofs/NearOrthogonal.v
theories/Proofs/NewtonSystem.v
theories/Proofs/Ode.v
theories/Proofs/Optimization.v
theories/Proofs/Order.v
theories/Proofs/Oscillation.v
theories/Proofs/Pade.v
theories/Proofs/Pairs.v
theories/Proofs/Particles.v
theories/Proofs/Path.v
theories/Proofs/Pid.v
theories/Proofs/Piecewise.v
theories/Proofs/Pinv.v
theories/Proofs/Planar.v
theories/Proofs/Polynomial.v
theories/Proofs/Qr.v
theories/Proofs/Quadrature.v
theories/Proofs/QuatExp.v
theories/Proofs/Quaternion.v
theories/Proofs/Random.v
theories/Proofs/Resampling.v
theories/Proofs/Riccati.v
theories/Proofs/RigidBody.v
theories/Proofs/RootFinding.v
theories/Proofs/RootFloat.v
theories/Proofs/RootSearch.v
theories/Proofs/Roots.v
theories/Proofs/Rotation.v
theories/Proofs/SavGol.v
theories/Proofs/Screw.v
theories/Proofs/Slerp.v
theories/Proofs/Smooth.v
theories/Proofs/SnapAccept.v
theories/Proofs/SnapAnswer.v
theories/Proofs/SnapPiece.v
theories/Proofs/SnapSystem.v
theories/Proofs/Space.v
theories/Proofs/SpaceJacobian.v
theories/Proofs/Stages.v
theories/Proofs/Sturm.v
theories/Proofs/Summation.v
theories/Proofs/Svd.v
theories/Proofs/Tableau.v
theories/Proofs/Trivialized.v
theories/Proofs/Unscented.v
theories/Proofs/Value.v
theories/Proofs/Vector.v
theories/Proofs/Window.v
theories/Props/Adaptive.v
theories/Props/Approximation.v
theories/Props/Attitude.v
theories/Props/AttitudeControl.v
theories/Props/AttitudeFilter.v
theories/Props/AttitudeStep.v
theories/Props/Biquad.v
theories/Props/Cholesky.v
theories/Props/Collision.v
theories/Props/Conditioning.v
theories/Props/Damped.v
theories/Props/Derivative.v
theories/Props/Discretization.v
theories/Props/Drive.v
theories/Props/Eigen.v
theories/Props/ErrorFilter.v
theories/Props/ErrorState.v
theories/Props/EstimationModels.v
theories/Props/Expm.v
theories/Props/ExtendedKalman.v
theories/Props/FollowGap.v
theories/Props/GaussNewton.v
theories/Props/Inertia.v
theories/Props/Integration.v
theories/Props/IntegrationMulti.v
theories/Props/InverseKinematics.v
theories/Props/JacobianInverse.v
theories/Props/Kalman.v
theories/Props/KinematicTree.v
theories/Props/Levenberg.v
theories/Props/Localizer.v
theories/Props/Lqr.v
theories/Props/Lu.v
theories/Props/LuAccept.v
theories/Props/Lyapunov.v
theories/Props/Mapping.v
theories/Props/Matrix.v
theories/Props/MinimumSnap.v
theories/Props/Motion.v
theories/Props/MultiStart.v
theories/Props/Multivariate.v
theories/Props/NewtonSystem.v
theories/Props/NominalState.v
theories/Props/Particles.v
theories/Props/Path.v
theories/Props/Pid.v
theories/Props/Piecewise.v
theories/Props/Planar.v
theories/Props/Plant.v
theories/Props/Polynomial.v
theories/Props/Qr.v
theories/Props/Quadrature.v
theories/Props/QuatExp.v
theories/Props/Quaternion.v
theories/Props/Random.v
theories/Props/Resampling.v
theories/Props/RigidBody.v
theories/Props/RootFinding.v
theories/Props/Roots.v
theories/Props/RungeKutta.v
theories/Props/SavGol.v
theories/Props/Scalar.v
theories/Props/Space.v
theories/Props/SpaceJacobian.v
theories/Props/Summation.v
theories/Props/Svd.v
theories/Props/Unscented.v
theories/Props/VectorField.v
theories/Props/Window.v
theories/Spec/AttitudeControl.v
theories/Spec/AttitudeFilter.v
theories/Spec/Biquad.v
theories/Spec/Collision.v
theories/Spec/Control.v
theories/Spec/Derivative.v
theories/Spec/Drive.v
theories/Spec/ErrorState.v
theories/Spec/Expr.v
theories/Spec/Gap.v
theories/Spec/Hold.v
theories/Spec/Inertia.v
theories/Spec/Integration.v
theories/Spec/InverseKinematics.v
theories/Spec/Kalman.v
theories/Spec/KinematicTree.v
theories/Spec/Mapping.v
theories/Spec/Matrix.v
theories/Spec/MatrixExp.v
theories/Spec/MinimumSnap.v
theories/Spec/Motion.v
theories/Spec/MultiStart.v
theories/Spec/Multivariate.v
theories/Spec/NewtonSystem.v
theories/Spec/Ode.v
theories/Spec/Optimization.v
theories/Spec/Particles.v
theories/Spec/Piecewise.v
theories/Spec/Planar.v
theories/Spec/Polynomial.v
theories/Spec/Quaternion.v
theories/Spec/Random.v
theories/Spec/RigidBody.v
theories/Spec/Roots.v
theories/Spec/Rotation.v
theories/Spec/Space.v
theories/Spec/Stream.v
theories/Spec/Summation.v
theories/Spec/Svd.v
theories/Spec/Unscented.v
theories/Spec/VectorField.v
theories/Spec/Window.v
