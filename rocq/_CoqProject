-Q theories Verif
theories/Model/CubeCavity.v
theories/Model/DeRham.v
theories/Model/Eigen.v
theories/Model/FieldLines.v
theories/Model/FormEval.v
theories/Model/Forms.v
theories/Model/Geometry.v
theories/Model/Gvec.v
theories/Model/HarmonicTests.v
theories/Model/Hopf.v
theories/Model/IO.v
theories/Model/Lazy.v
theories/Model/Lcfs.v
theories/Model/Maps.v
theories/Model/Perturbation.v
theories/Model/PlotHelpers.v
theories/Model/Plotting.v
theories/Model/Poisson.v
theories/Model/Pressure.v
theories/Model/PyHeap.v
theories/Model/Quad.v
theories/Model/RBase.v
theories/Model/RateCheck.v
theories/Model/Relaxation.v
theories/Model/Scripts.v
theories/Model/SeqR.v
theories/Model/Session.v
theories/Model/SolovevField.v
theories/Model/Solvers.v
theories/Model/SpectralCheck.v
theories/Model/Spline.v
theories/Model/SplineCtor.v
theories/Proof/ApproxSeq.v
theories/Proof/ApproxSplines.v
theories/Proof/Arnold.v
theories/Proof/BSplineIndep.v
theories/Proof/BSplineLemmas.v
theories/Proof/BSplinePoly.v
theories/Proof/BoundarySel.v
theories/Proof/ClampedBox.v
theories/Proof/Complex.v
theories/Proof/DeRhamAlg.v
theories/Proof/DerivSum.v
theories/Proof/FieldLineProofs.v
theories/Proof/ForceAlg.v
theories/Proof/FormEvalProofs.v
theories/Proof/GaussGap.v
theories/Proof/GeometryProofs.v
theories/Proof/Greville.v
theories/Proof/GrevilleSeq.v
theories/Proof/GvecProofs.v
theories/Proof/HarmonicFields.v
theories/Proof/HeapProofs.v
theories/Proof/HelicityIBP.v
theories/Proof/HelicitySeq.v
theories/Proof/IOProofs.v
theories/Proof/Incidence.v
theories/Proof/IndexLemmas.v
theories/Proof/JacProofs.v
theories/Proof/LaplaceProofs.v
theories/Proof/LazyProofs.v
theories/Proof/LcfsAlg.v
theories/Proof/LeastSquares.v
theories/Proof/Limits.v
theories/Proof/MCRing.v
theories/Proof/MapProofs.v
theories/Proof/MapQuad.v
theories/Proof/MapSeq.v
theories/Proof/MassSPD.v
theories/Proof/MidpointSolve.v
theories/Proof/NewtonProofs.v
theories/Proof/PolarFree.v
theories/Proof/PolarSpan.v
theories/Proof/ProjectionProofs.v
theories/Proof/QuadProofs.v
theories/Proof/RField.v
theories/Proof/RelaxAlg.v
theories/Proof/RelaxBound.v
theories/Proof/RelaxConverge.v
theories/Proof/RelaxHelicity.v
theories/Proof/RelaxLoop.v
theories/Proof/RelaxNewton.v
theories/Proof/RelaxProgress.v
theories/Proof/RelaxRun.v
theories/Proof/ScaleProofs.v
theories/Proof/ScaleRun.v
theories/Proof/SeqCalculus.v
theories/Proof/SeqDeriv.v
theories/Proof/SeqFacts.v
theories/Proof/SeqFlux.v
theories/Proof/SeqRProofs.v
theories/Proof/SeqSeg.v
theories/Proof/SeqSep.v
theories/Proof/SeqSmooth.v
theories/Proof/SequenceAlg.v
theories/Proof/Singular.v
theories/Proof/SolverProofs.v
theories/Proof/Spectral.v
theories/Proof/SpectrumAlg.v
theories/Proof/SpectrumMat.v
theories/Proof/SpectrumSeq.v
theories/Proof/SplineCont.v
theories/Proof/SplineCtorProofs.v
theories/Proof/SplineDeriv.v
theories/Proof/SplineIBP.v
theories/Proof/SplineIBP2.v
theories/Proof/SplineInt.v
theories/Proof/SplineLink.v
theories/Proof/SplineProps.v
theories/Proof/SplineSeg.v
theories/Proof/SplineSmooth.v
theories/Proof/SplineTables.v
theories/Proof/Topology.v
theories/Proof/TrapezoidProofs.v
theories/Proof/UnitField.v
theories/Props/Approx.v
theories/Props/Arnold.v
theories/Props/Box.v
theories/Props/Commuting.v
theories/Props/Converge.v
theories/Props/CubeCavity.v
theories/Props/DeRham.v
theories/Props/Determined.v
theories/Props/FieldLines.v
theories/Props/FieldLinesSeq.v
theories/Props/Flux.v
theories/Props/FormSpaces.v
theories/Props/Geometry.v
theories/Props/Gvec.v
theories/Props/HarmonicTests.v
theories/Props/Helicity.v
theories/Props/Hopf.v
theories/Props/IO.v
theories/Props/Lazy.v
theories/Props/Lcfs.v
theories/Props/Maps.v
theories/Props/MapsSequence.v
theories/Props/Midpoint.v
theories/Props/Newton.v
theories/Props/Perturbation.v
theories/Props/PlotHelpers.v
theories/Props/Plotting.v
theories/Props/Poisson.v
theories/Props/PoissonData.v
theories/Props/PolarSmooth.v
theories/Props/Pressure.v
theories/Props/Quadrature.v
theories/Props/RateCheck.v
theories/Props/Relaxation.v
theories/Props/Scale.v
theories/Props/Scripts.v
theories/Props/Segments.v
theories/Props/SequenceR.v
theories/Props/Session.v
theories/Props/Singular.v
theories/Props/Smooth.v
theories/Props/SolovevField.v
theories/Props/Solvers.v
theories/Props/SpectralCheck.v
theories/Props/Spectrum.v
theories/Props/Splines.v
theories/Props/SweepCounts.v
theories/Props/Topology.v
theories/Props/TraceDict.v
theories/Spec/ApproxSpec.v
theories/Spec/BSpline.v
theories/Spec/BoxSpec.v
theories/Spec/CalculusSpec.v
theories/Spec/CavitySpec.v
theories/Spec/Cochain.v
theories/Spec/DerivApproxSpec.v
theories/Spec/EquilibriumSpec.v
theories/Spec/FieldLineSpec.v
theories/Spec/FluxSpec.v
theories/Spec/FormSpec.v
theories/Spec/FreeDofs.v
theories/Spec/GeomSpec.v
theories/Spec/GvecSpec.v
theories/Spec/HarmonicSpec.v
theories/Spec/HeapSpec.v
theories/Spec/HelicitySpec.v
theories/Spec/HopfSpec.v
theories/Spec/IOSpec.v
theories/Spec/LaplaceSpec.v
theories/Spec/LcfsSpec.v
theories/Spec/MapSpec.v
theories/Spec/PlotSpec.v
theories/Spec/PolarSpace.v
theories/Spec/QuadSpec.v
theories/Spec/RelaxSpec.v
theories/Spec/ScaleSpec.v
theories/Spec/SegSpec.v
theories/Spec/SeqRSpec.v
theories/Spec/SeqSpec.v
theories/Spec/SmoothSpec.v
theories/Spec/SolverSpec.v
theories/Spec/SpectrumSpec.v
theories/Spec/TopologySpec.v
